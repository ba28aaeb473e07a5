(** Induction over the semantics of formats, with the hypothesis also available
    for the elements of repetitions. *)
From Verif Require ByteSetModel.
From Verif Require Import Base BoundsModel DataModel NumericModel ValueModel FormatModel DecoderModel FormatSpec.
Open Scope nat_scope.

Definition Chain_impl {A} (R R' : A -> nat -> nat -> value -> Prop) (h : forall a i j v, R a i j v -> R' a i j v) :=
  fix go l i j vs (c : Chain R l i j vs) : Chain R' l i j vs :=
    match c with
    | ChNil _ i => ChNil R' i
    | ChCons _ a l i j k v vs r c' => ChCons R' a l i j k v vs (h a i j v r) (go l j k vs c')
    end.

Section SemInd.
Context (M : fmodule) (strict : bool) (unmatched failed : scope format -> format -> list N -> nat -> Prop) (P : scope format -> format -> list N -> nat -> nat -> value -> Prop).
Context
 (HSemItem : forall s level args views it s' buf i j v , get_item M level = Some it -> call_scope s (combine (it_args it) args) (combine (it_views it) views) = Val (inl s') -> SemN M strict unmatched failed s' (it_format it) buf i j v -> P s' (it_format it) buf i j v -> P s (FItemVar level args views) buf i j v)
 (HSemEndOfInput : forall s buf i , length buf <= i -> P s FEndOfInput buf i i VUnit)
 (HSemAlign : forall s n buf i j , n <> 0%N -> (N.of_nat j mod n = 0)%N -> i <= j -> (N.of_nat j < N.of_nat i + n)%N -> j <= length buf -> P s (FAlign n) buf i j VUnit)
 (HSemByte : forall s bs buf i b , nth_error buf i = Some b -> ByteSetModel.contains bs b = true -> P s (FByte bs) buf i (S i) (VU B8 b))
 (HSemVariant : forall s l f buf i j v , SemN M strict unmatched failed s f buf i j v -> P s f buf i j v -> P s (FVariant l f) buf i j (VVariant l v))
 (HSemUnion : forall s fs k f buf i j v , nth_error fs k = Some f -> SemN M strict unmatched failed s f buf i j v -> P s f buf i j v -> P s (FUnion fs) buf i j (VBranch k v))
 (HSemUnionNondet : forall s fs k f buf i j v , strict = false -> Forall (fun g => failed s g buf i) (firstn k fs) -> nth_error fs k = Some f -> SemN M strict unmatched failed s f buf i j v -> P s f buf i j v -> P s (FUnionNondet fs) buf i j (VBranch k v))
 (HSemTuple : forall s fs buf i j vs , Chain (fun f i j v => SemN M strict unmatched failed s f buf i j v /\ P s f buf i j v) fs i j vs -> P s (FTuple fs) buf i j (VTuple vs))
 (HSemSequence : forall s fs buf i j vs , Chain (fun f i j v => SemN M strict unmatched failed s f buf i j v /\ P s f buf i j v) fs i j vs -> P s (FSequence fs) buf i j (VSeq (Strict vs)))
 (HSemRepeat : forall s f n buf i j vs , Chain (fun f i j v => SemN M strict unmatched failed s f buf i j v /\ P s f buf i j v) (repeat f n) i j vs -> P s (FRepeat f) buf i j (VSeq (Strict vs)))
 (HSemRepeat1 : forall s f n buf i j vs , Chain (fun f i j v => SemN M strict unmatched failed s f buf i j v /\ P s f buf i j v) (repeat f (S n)) i j vs -> P s (FRepeat1 f) buf i j (VSeq (Strict vs)))
 (HSemRepeatCount : forall s e f n buf i j vs , eval_usize e s = Val n -> Chain (fun f i j v => SemN M strict unmatched failed s f buf i j v /\ P s f buf i j v) (repeat f (N.to_nat n)) i j vs -> P s (FRepeatCount e f) buf i j (VSeq (Strict vs)))
 (HSemRepeatBetween : forall s e1 e2 f n1 n2 n buf i j vs , strict = false -> eval_usize e1 s = Val n1 -> eval_usize e2 s = Val n2 -> (n1 <= N.of_nat n <= n2)%N -> Chain (fun f i j v => SemN M strict unmatched failed s f buf i j v /\ P s f buf i j v) (repeat f n) i j vs -> P s (FRepeatBetween e1 e2 f) buf i j (VSeq (Strict vs)))
 (HSemRepeatUntilLast : forall s e f n buf i j vs , Chain (fun f i j v => SemN M strict unmatched failed s f buf i j v /\ P s f buf i j v) (repeat f n) i j vs -> StopsAt (fun _ v => lambda_bool e s v) [] vs -> P s (FRepeatUntilLast e f) buf i j (VSeq (Strict vs)))
 (HSemRepeatUntilSeq : forall s e f n buf i j vs , Chain (fun f i j v => SemN M strict unmatched failed s f buf i j v /\ P s f buf i j v) (repeat f n) i j vs -> StopsAt (fun acc v => lambda_bool e s (VSeq (Strict (acc ++ [v])))) [] vs -> P s (FRepeatUntilSeq e f) buf i j (VSeq (Strict vs)))
 (HSemAccumUntil : forall s fd fu e0 t f n buf i j vs acc0 acc , eval_value e0 s = Val acc0 -> Chain (fun f i j v => SemN M strict unmatched failed s f buf i j v /\ P s f buf i j v) (repeat f n) i j vs -> AccumTo (fun a vs => lambda_bool fd s (VTuple [a; VSeq (Strict vs)])) (fun a v => eval_lambda fu s (VTuple [a; v])) acc0 [] vs acc -> P s (FAccumUntil fd fu e0 t f) buf i j (VTuple [acc; VSeq (Strict vs)]))
 (HSemForEach : forall s e x f l buf i j vs , eval_list e s = Val l -> Chain (fun v0 i j v => SemN M strict unmatched failed (SSingle s x v0) f buf i j v /\ P (SSingle s x v0) f buf i j v) l i j vs -> P s (FForEach e x f) buf i j (VSeq (Strict vs)))
 (HSemMaybeNo : forall s e f buf i , eval_bool e s = Val false -> P s (FMaybe e f) buf i i (VOption None))
 (HSemMaybeYes : forall s e f buf i j v , eval_bool e s = Val true -> SemN M strict unmatched failed s f buf i j v -> P s f buf i j v -> P s (FMaybe e f) buf i j (VOption (Some v)))
 (HSemPeek : forall s f buf i j v , SemN M strict unmatched failed s f buf i j v -> P s f buf i j v -> P s (FPeek f) buf i i v)
 (HSemPeekNot : forall s f buf i , strict = false -> unmatched s f buf i -> P s (FPeekNot f) buf i i (VTuple []))
 (HSemSlice : forall s e f n buf i j v , eval_usize e s = Val n -> i + N.to_nat n <= length buf -> SemN M strict unmatched failed s f (firstn (i + N.to_nat n) buf) i j v -> P s f (firstn (i + N.to_nat n) buf) i j v -> (strict = true -> j = i + N.to_nat n) -> P s (FSlice e f) buf i (i + N.to_nat n) v)
 (HSemBits : forall s f buf i k v , i <= length buf -> SemN M strict unmatched failed s f (bits_of (skipn i buf)) 0 k v -> P s f (bits_of (skipn i buf)) 0 k v -> (strict = true -> usable (bits_of (skipn i buf))) -> P s (FBits f) buf i (i + (k + 7) / 8) v)
 (HSemWithRelativeOffset : forall s e1 e2 f n1 n2 buf i j v , eval_usize e1 s = Val n1 -> eval_usize e2 s = Val n2 -> (n1 + n2 < w64)%N -> (n1 + n2 <= N.of_nat (length buf))%N -> SemN M strict unmatched failed s f buf (N.to_nat (n1 + n2)) j v -> P s f buf (N.to_nat (n1 + n2)) j v -> P s (FWithRelativeOffset e1 e2 f) buf i i v)
 (HSemMap : forall s f e buf i j v w , SemN M strict unmatched failed s f buf i j v -> P s f buf i j v -> eval_lambda e s v = Val w -> P s (FMap f e) buf i j (VMapped v w))
 (HSemWhere : forall s f e hard b buf i j v , SemN M strict unmatched failed s f buf i j v -> P s f buf i j v -> lambda_bool e s v = Val b -> (hard = true -> b = true) -> P s (FWhere f e hard) buf i j v)
 (HSemCompute : forall s e buf i v , eval_value e s = Val v -> P s (FCompute e) buf i i v)
 (HSemLet : forall s x e f buf i j v w , eval_value e s = Val w -> SemN M strict unmatched failed (SSingle s x w) f buf i j v -> P (SSingle s x w) f buf i j v -> P s (FLet x e f) buf i j v)
 (HSemMatch : forall s e bs w k s' f buf i j v , eval e s = Val w -> first_match w s 0 bs = Some (k, s', f) -> SemN M strict unmatched failed s' f buf i j v -> P s' f buf i j v -> P s (FMatch e bs) buf i j (VBranch k v))
 (HSemDynamic : forall s x dy g f buf i j v , dyn_format dy s = Val g -> (strict = true -> exists ls, dyn_lengths dy s = Val ls /\ enough_codes ls) -> SemN M strict unmatched failed (SDecoder s x g) f buf i j v -> P (SDecoder s x g) f buf i j v -> P s (FDynamic x dy f) buf i j v)
 (HSemApply : forall s x g buf i j v , get_decoder x s = Some g -> SemN M strict unmatched failed s g buf i j v -> P s g buf i j v -> P s (FApply x) buf i j v)
 (HSemPos : forall s buf i , P s FPos buf i i (VU B64 (N.of_nat i)))
 (HSemSkipRemainder : forall s buf i , i <= length buf -> P s FSkipRemainder buf i (length buf) VUnit)
 (HSemDecodeBytes : forall s e f bytes buf i j v , eval_bytes e s = Val bytes -> SemN M strict unmatched failed s f bytes 0 j v -> P s f bytes 0 j v -> (strict = true -> usable bytes /\ j = length bytes) -> P s (FDecodeBytes e f) buf i i v)
 (HSemLetFormat : forall s f x g buf i j k v w , SemN M strict unmatched failed s f buf i j w -> P s f buf i j w -> SemN M strict unmatched failed (SSingle s x w) g buf j k v -> P (SSingle s x w) g buf j k v -> P s (FLetFormat f x g) buf i k v)
 (HSemMonadSeq : forall s f g buf i j k v w , SemN M strict unmatched failed s f buf i j w -> P s f buf i j w -> SemN M strict unmatched failed s g buf j k v -> P s g buf j k v -> P s (FMonadSeq f g) buf i k v)
 (HSemHint : forall s f buf i j v , SemN M strict unmatched failed s f buf i j v -> P s f buf i j v -> P s (FHint f) buf i j v)
 (HSemNone : forall s buf i , P s (FLiftedOption None) buf i i (VOption None))
 (HSemSome : forall s f buf i j v , SemN M strict unmatched failed s f buf i j v -> P s f buf i j v -> P s (FLiftedOption (Some f)) buf i j (VOption (Some v)))
 (HSemLetView : forall s x f buf i j v , SemN M strict unmatched failed (SView s x (RC buf i)) f buf i j v -> P (SView s x (RC buf i)) f buf i j v -> P s (FLetView x f) buf i j v)
 (HSemCapture : forall s ve e n w buf i j vs , eval_usize e s = Val n -> eval_view s ve = Val (inl w) -> Chain (Elem (BK B8 true) (rinput w)) (repeat tt (N.to_nat n)) (roff w) j vs -> P s (FWithView ve (VFCapture e)) buf i i (VSeq (Strict vs)))
 (HSemReadArray : forall s ve e n w k buf i j vs , eval_usize e s = Val n -> eval_view s ve = Val (inl w) -> Chain (Elem k (rinput w)) (repeat tt (N.to_nat n)) (roff w) j vs -> P s (FWithView ve (VFReadArray e k)) buf i i (VSeq (Strict vs)))
 (HSemReify : forall s ve w buf i , eval_view s ve = Val (inl w) -> P s (FWithView ve VFReify) buf i i (VView (roff w)))
 (HSemParseFromView : forall s ve f w buf i j v , eval_view s ve = Val (inl w) -> SemN M strict unmatched failed s f (rinput w) (roff w) j v -> P s f (rinput w) (roff w) j v -> (strict = true -> usable (rinput w)) -> P s (FParseFromView ve f) buf i i v)
 (HSemPhantom : forall s f buf i , P s (FPhantom f) buf i i VPhantom)
 (HSemPermit : forall s f e buf i j v , SemN M strict unmatched failed s f buf i j v -> P s f buf i j v -> P s (FPermit f e) buf i j (VPermitOk v))
 (HSemPermitFailed : forall s f e buf i w , strict = false -> failed s f buf i -> eval_value e s = Val w -> P s (FPermit f e) buf i i (VPermitErr (Some w))).
Lemma Sem_ind' : forall s f buf i j v, SemN M strict unmatched failed s f buf i j v -> P s f buf i j v.
Proof.
  fix IH 7. intros s f buf i j v H. destruct H.
  - eapply HSemItem; try eassumption; try (apply IH; eassumption); try (eapply Chain_impl; [|eassumption]; cbn beta; intros; split; [assumption|now apply IH]).
  - eapply HSemEndOfInput; try eassumption; try (apply IH; eassumption); try (eapply Chain_impl; [|eassumption]; cbn beta; intros; split; [assumption|now apply IH]).
  - eapply HSemAlign; try eassumption; try (apply IH; eassumption); try (eapply Chain_impl; [|eassumption]; cbn beta; intros; split; [assumption|now apply IH]).
  - eapply HSemByte; try eassumption; try (apply IH; eassumption); try (eapply Chain_impl; [|eassumption]; cbn beta; intros; split; [assumption|now apply IH]).
  - eapply HSemVariant; try eassumption; try (apply IH; eassumption); try (eapply Chain_impl; [|eassumption]; cbn beta; intros; split; [assumption|now apply IH]).
  - eapply HSemUnion; try eassumption; try (apply IH; eassumption); try (eapply Chain_impl; [|eassumption]; cbn beta; intros; split; [assumption|now apply IH]).
  - eapply HSemUnionNondet; try eassumption; try (apply IH; eassumption); try (eapply Chain_impl; [|eassumption]; cbn beta; intros; split; [assumption|now apply IH]).
  - eapply HSemTuple; try eassumption; try (apply IH; eassumption); try (eapply Chain_impl; [|eassumption]; cbn beta; intros; split; [assumption|now apply IH]).
  - eapply HSemSequence; try eassumption; try (apply IH; eassumption); try (eapply Chain_impl; [|eassumption]; cbn beta; intros; split; [assumption|now apply IH]).
  - eapply HSemRepeat; try eassumption; try (apply IH; eassumption); try (eapply Chain_impl; [|eassumption]; cbn beta; intros; split; [assumption|now apply IH]).
  - eapply HSemRepeat1; try eassumption; try (apply IH; eassumption); try (eapply Chain_impl; [|eassumption]; cbn beta; intros; split; [assumption|now apply IH]).
  - eapply HSemRepeatCount; try eassumption; try (apply IH; eassumption); try (eapply Chain_impl; [|eassumption]; cbn beta; intros; split; [assumption|now apply IH]).
  - eapply HSemRepeatBetween; try eassumption; try (apply IH; eassumption); try (eapply Chain_impl; [|eassumption]; cbn beta; intros; split; [assumption|now apply IH]).
  - eapply HSemRepeatUntilLast; try eassumption; try (apply IH; eassumption); try (eapply Chain_impl; [|eassumption]; cbn beta; intros; split; [assumption|now apply IH]).
  - eapply HSemRepeatUntilSeq; try eassumption; try (apply IH; eassumption); try (eapply Chain_impl; [|eassumption]; cbn beta; intros; split; [assumption|now apply IH]).
  - eapply HSemAccumUntil; try eassumption; try (apply IH; eassumption); try (eapply Chain_impl; [|eassumption]; cbn beta; intros; split; [assumption|now apply IH]).
  - eapply HSemForEach; try eassumption; try (apply IH; eassumption); try (eapply Chain_impl; [|eassumption]; cbn beta; intros; split; [assumption|now apply IH]).
  - eapply HSemMaybeNo; try eassumption; try (apply IH; eassumption); try (eapply Chain_impl; [|eassumption]; cbn beta; intros; split; [assumption|now apply IH]).
  - eapply HSemMaybeYes; try eassumption; try (apply IH; eassumption); try (eapply Chain_impl; [|eassumption]; cbn beta; intros; split; [assumption|now apply IH]).
  - eapply HSemPeek; try eassumption; try (apply IH; eassumption); try (eapply Chain_impl; [|eassumption]; cbn beta; intros; split; [assumption|now apply IH]).
  - eapply HSemPeekNot; try eassumption; try (apply IH; eassumption); try (eapply Chain_impl; [|eassumption]; cbn beta; intros; split; [assumption|now apply IH]).
  - eapply HSemSlice; try eassumption; try (apply IH; eassumption); try (eapply Chain_impl; [|eassumption]; cbn beta; intros; split; [assumption|now apply IH]).
  - eapply HSemBits; try eassumption; try (apply IH; eassumption); try (eapply Chain_impl; [|eassumption]; cbn beta; intros; split; [assumption|now apply IH]).
  - eapply HSemWithRelativeOffset; try eassumption; try (apply IH; eassumption); try (eapply Chain_impl; [|eassumption]; cbn beta; intros; split; [assumption|now apply IH]).
  - eapply HSemMap; try eassumption; try (apply IH; eassumption); try (eapply Chain_impl; [|eassumption]; cbn beta; intros; split; [assumption|now apply IH]).
  - eapply HSemWhere; try eassumption; try (apply IH; eassumption); try (eapply Chain_impl; [|eassumption]; cbn beta; intros; split; [assumption|now apply IH]).
  - eapply HSemCompute; try eassumption; try (apply IH; eassumption); try (eapply Chain_impl; [|eassumption]; cbn beta; intros; split; [assumption|now apply IH]).
  - eapply HSemLet; try eassumption; try (apply IH; eassumption); try (eapply Chain_impl; [|eassumption]; cbn beta; intros; split; [assumption|now apply IH]).
  - eapply HSemMatch; try eassumption; try (apply IH; eassumption); try (eapply Chain_impl; [|eassumption]; cbn beta; intros; split; [assumption|now apply IH]).
  - eapply HSemDynamic; try eassumption; try (apply IH; eassumption); try (eapply Chain_impl; [|eassumption]; cbn beta; intros; split; [assumption|now apply IH]).
  - eapply HSemApply; try eassumption; try (apply IH; eassumption); try (eapply Chain_impl; [|eassumption]; cbn beta; intros; split; [assumption|now apply IH]).
  - eapply HSemPos; try eassumption; try (apply IH; eassumption); try (eapply Chain_impl; [|eassumption]; cbn beta; intros; split; [assumption|now apply IH]).
  - eapply HSemSkipRemainder; try eassumption; try (apply IH; eassumption); try (eapply Chain_impl; [|eassumption]; cbn beta; intros; split; [assumption|now apply IH]).
  - eapply HSemDecodeBytes; try eassumption; try (apply IH; eassumption); try (eapply Chain_impl; [|eassumption]; cbn beta; intros; split; [assumption|now apply IH]).
  - eapply HSemLetFormat; try eassumption; try (apply IH; eassumption); try (eapply Chain_impl; [|eassumption]; cbn beta; intros; split; [assumption|now apply IH]).
  - eapply HSemMonadSeq; try eassumption; try (apply IH; eassumption); try (eapply Chain_impl; [|eassumption]; cbn beta; intros; split; [assumption|now apply IH]).
  - eapply HSemHint; try eassumption; try (apply IH; eassumption); try (eapply Chain_impl; [|eassumption]; cbn beta; intros; split; [assumption|now apply IH]).
  - eapply HSemNone; try eassumption; try (apply IH; eassumption); try (eapply Chain_impl; [|eassumption]; cbn beta; intros; split; [assumption|now apply IH]).
  - eapply HSemSome; try eassumption; try (apply IH; eassumption); try (eapply Chain_impl; [|eassumption]; cbn beta; intros; split; [assumption|now apply IH]).
  - eapply HSemLetView; try eassumption; try (apply IH; eassumption); try (eapply Chain_impl; [|eassumption]; cbn beta; intros; split; [assumption|now apply IH]).
  - eapply HSemCapture; try eassumption; try (apply IH; eassumption); try (eapply Chain_impl; [|eassumption]; cbn beta; intros; split; [assumption|now apply IH]).
  - eapply HSemReadArray; try eassumption; try (apply IH; eassumption); try (eapply Chain_impl; [|eassumption]; cbn beta; intros; split; [assumption|now apply IH]).
  - eapply HSemReify; try eassumption; try (apply IH; eassumption); try (eapply Chain_impl; [|eassumption]; cbn beta; intros; split; [assumption|now apply IH]).
  - eapply HSemParseFromView; try eassumption; try (apply IH; eassumption); try (eapply Chain_impl; [|eassumption]; cbn beta; intros; split; [assumption|now apply IH]).
  - eapply HSemPhantom; try eassumption; try (apply IH; eassumption); try (eapply Chain_impl; [|eassumption]; cbn beta; intros; split; [assumption|now apply IH]).
  - eapply HSemPermit; try eassumption; try (apply IH; eassumption); try (eapply Chain_impl; [|eassumption]; cbn beta; intros; split; [assumption|now apply IH]).
  - eapply HSemPermitFailed; try eassumption; try (apply IH; eassumption); try (eapply Chain_impl; [|eassumption]; cbn beta; intros; split; [assumption|now apply IH]).
Qed.
End SemInd.
