(** Model of decoding with source locations: src/loc_decoder.rs. It is a second
    interpreter for the same decoders, over values that remember where they were
    read. *)
From Verif Require ByteSetModel HuffmanModel.
From Verif Require Import Base BoundsModel DataModel NumericModel ValueModel FormatModel MatchTreeModel DecoderModel.
Open Scope nat_scope.

(** ** Locations *)

(** loc_decoder.rs:24-31 [enum ParseLoc]. Lengths are [nat]: that the sums of
    lengths in [join] fit a [usize] is not represented. *)
Inductive loc := LSynth | LBuf (off len : nat).
(** loc_decoder.rs:39-62 [Ord for ParseLoc] *)
Definition loc_cmp (a b : loc) : comparison :=
  match a, b with
  | LBuf o0 l0, LBuf o1 l1 => match Nat.compare o0 o1 with Eq => Nat.compare l0 l1 | other => other end
  | LBuf _ _, LSynth => Lt
  | LSynth, LBuf _ _ => Gt
  | LSynth, LSynth => Eq
  end.
(** loc_decoder.rs:98-112 [join] *)
Definition loc_join (self other : loc) : loc :=
  match other with
  | LSynth => self
  | LBuf o l =>
    match self with
    | LSynth => other
    | LBuf o0 l0 => LBuf (Nat.min o0 o) (l0 + l)
    end
  end.
(** loc_decoder.rs:123-129 [accum] *)
Definition loc_accum (ls : list loc) : loc := fold_left loc_join ls LSynth.

(** ** Values with locations *)

(** loc_decoder.rs:155-166 [enum ParsedValue], 134-138 [struct Parsed] *)
Inductive pval :=
| QFlat (l : loc) (v : value)
| QTuple (l : loc) (ps : list pval)
| QRecord (l : loc) (fs : list (label * pval))
| QVariant (lab : label) (p : pval)
| QSeq (l : loc) (s : seqkind pval)
| QMapped (orig image : pval)
| QBranch (n : nat) (p : pval)
| QPermitOk (p : pval)
| QPermitErr (o : option pval)
| QOption (o : option pval).

(** loc_decoder.rs:179-195 [get_loc] *)
Fixpoint get_loc (p : pval) : loc :=
  match p with
  | QFlat l _ | QTuple l _ | QRecord l _ | QSeq l _ => l
  | QVariant _ p' | QBranch _ p' | QMapped p' _ | QOption (Some p') | QPermitOk p' | QPermitErr (Some p') => get_loc p'
  | QOption None | QPermitErr None => LSynth
  end.
(** loc_decoder.rs:258-273 [translate] *)
Fixpoint translate (n : loc) (p : pval) : pval :=
  match p with
  | QFlat _ v => QFlat n v
  | QTuple _ ps => QTuple n ps
  | QRecord _ fs => QRecord n fs
  | QSeq _ s => QSeq n s
  | QVariant l p' => QVariant l (translate n p')
  | QBranch i p' => QBranch i (translate n p')
  | QMapped o p' => QMapped o (translate n p')
  | QOption (Some p') => QOption (Some (translate n p'))
  | QPermitOk p' => QPermitOk (translate n p')
  | QPermitErr (Some p') => QPermitErr (Some (translate n p'))
  | QOption None => QOption None
  | QPermitErr None => QPermitErr None
  end.
(** loc_decoder.rs:283-308 [From<ParsedValue> for Value]: a sequence becomes a
    strict one *)
Fixpoint to_value (p : pval) : value :=
  match p with
  | QFlat _ v => v
  | QTuple _ ps => VTuple (map to_value ps)
  | QSeq _ (Strict ps) => VSeq (Strict (map to_value ps))
  | QSeq _ (Dup n p') => VSeq (Strict (repeat (to_value p') n))
  | QRecord _ fs => VRecord (map (fun f => match f with (l, p') => (l, to_value p') end) fs)
  | QVariant l p' => VVariant l (to_value p')
  | QMapped o i => VMapped (to_value o) (to_value i)
  | QBranch n p' => VBranch n (to_value p')
  | QOption None => VOption None
  | QOption (Some p') => VOption (Some (to_value p'))
  | QPermitOk p' => VPermitOk (to_value p')
  | QPermitErr None => VPermitErr None
  | QPermitErr (Some p') => VPermitErr (Some (to_value p'))
  end.
(** loc_decoder.rs:330-364 [clone_into_value]: unlike [From], it keeps a repeated
    element of an outermost sequence, and below permits *)
Fixpoint clone_value (p : pval) : value :=
  match p with
  | QSeq _ (Dup n p') => VSeq (Dup n (clone_value p'))
  | QPermitOk p' => VPermitOk (clone_value p')
  | QPermitErr (Some p') => VPermitErr (Some (clone_value p'))
  | p => to_value p
  end.
(** loc_decoder.rs:491-560 [from_evaluated] *)
Fixpoint from_evaluated (v : value) : pval :=
  match v with
  | VBool _ | VU _ _ | VNumeric _ | VView _ | VUsize _ | VEnumFromTo _ _ | VPhantom | VChar _ => QFlat LSynth v
  | VTuple vs => QTuple LSynth (map from_evaluated vs)
  | VRecord fs => QRecord LSynth (map (fun f => match f with (l, v') => (l, from_evaluated v') end) fs)
  | VSeq (Strict vs) => QSeq LSynth (Strict (map from_evaluated vs))
  | VSeq (Dup n v') => QSeq LSynth (Strict (repeat (from_evaluated v') n))
  | VVariant l v' => QVariant l (from_evaluated v')
  | VMapped o i => QMapped (from_evaluated o) (from_evaluated i)
  | VBranch n v' => QBranch n (from_evaluated v')
  | VOption None => QOption None
  | VOption (Some v') => QOption (Some (from_evaluated v'))
  | VPermitOk v' => QPermitOk (from_evaluated v')
  | VPermitErr None => QPermitErr None
  | VPermitErr (Some v') => QPermitErr (Some (from_evaluated v'))
  end.
(** loc_decoder.rs:251-255 [inherit] *)
Definition inherit (orig : pval) (v : value) : pval := translate (get_loc orig) (from_evaluated v).
(** loc_decoder.rs:198-208 [unit_at], [unit_spanning], 215-245 [new_flat],
    [new_tuple], [new_phantom], [new_seq] *)
Definition q_unit (off len : nat) : pval := QTuple (LBuf off len) [].
Definition q_phantom : pval := QFlat LSynth VPhantom.
Definition q_seq (ps : list pval) (off len : nat) : pval := QSeq (LBuf off len) (Strict ps).
Definition q_tuple (ps : list pval) (off len : nat) : pval := QTuple (LBuf off len) ps.
(** loc_decoder.rs:562-567 [from_evaluated_seq] *)
Definition q_synth_seq (s : seqkind pval) : pval := QSeq LSynth s.
(** loc_decoder.rs:473-480 [collect_fields] *)
Definition collect_fields (fs : list (label * pval)) : outcome pval :=
  match fs with
  | [] => Panic
  | _ => Val (QRecord (loc_accum (map (fun f => get_loc (snd f)) fs)) fs)
  end.
(** loc_decoder.rs:482-489 [coerce_mapped_value] *)
Fixpoint q_coerce (p : pval) : pval :=
  match p with
  | QMapped _ p' | QBranch _ p' | QPermitOk p' => q_coerce p'
  | p => p
  end.
(** loc_decoder.rs:466-471 [tuple_proj], 318-328 [record_proj] *)
Definition q_tuple_proj (p : pval) (i : nat) : outcome pval :=
  match q_coerce p with
  | QTuple _ ps => match nth_error ps i with Some x => Val x | None => Panic end
  | _ => Panic
  end.
Definition q_record_proj (p : pval) (l : label) : outcome pval :=
  match p with
  | QRecord _ fs => match assoc l fs with Some x => Val x | None => Panic end
  | _ => Panic
  end.
(** loc_decoder.rs:569-578 [get_sequence] *)
Inductive qvseq := QVals (s : seqkind pval) | QRange (lo hi : N).
Definition q_get_sequence (p : pval) : option qvseq :=
  match p with
  | QSeq _ s => Some (QVals s)
  | QFlat _ (VEnumFromTo lo hi) => Some (QRange lo hi)
  | _ => None
  end.
(** src/decoder/seq_kind.rs:26-48, 63-96 at [ParsedValue]; loc_decoder.rs:168-175
    [From<usize>] *)
Definition qvseq_len (s : qvseq) : N :=
  match s with QVals s => N.of_nat (sk_len s) | QRange lo hi => (hi - lo)%N end.
Definition qvseq_is_empty (s : qvseq) : bool :=
  match s with QVals s => sk_is_empty s | QRange lo hi => N.leb hi lo end.
Definition q_usize (n : N) : pval := QFlat LSynth (VUsize n).
Definition qvseq_list (s : qvseq) : list pval :=
  match s with QVals s => sk_to_list s | QRange lo hi => map q_usize (nrange lo (N.to_nat (hi - lo))) end.
Definition qvseq_append (a b : qvseq) : outcome (seqkind pval) :=
  match a, b with QVals s, QVals t => Val (sk_append s t) | _, _ => Panic end.

(** ** Patterns *)

Definition qbinds := list (label * pval).
Section MatchList.
Context (m : pattern -> pval -> qbinds -> option qbinds).
Fixpoint q_match_list (ps : list pattern) (vs : list pval) (acc : qbinds) : option qbinds :=
  match ps, vs with
  | p :: ps', v :: vs' => match m p v acc with Some acc' => q_match_list ps' vs' acc' | None => None end
  | _, _ => Some acc
  end.
End MatchList.
(** loc_decoder.rs:366-464 [matches_inner] *)
Fixpoint q_matches_inner (p : pattern) (q : pval) (acc : qbinds) {struct p} : option qbinds :=
  let when (b : bool) := if b then Some acc else None in
  match p with
  | PBinding x => Some (acc ++ [(x, q)])
  | PWildcard => Some acc
  | PBool b0 => match q with QFlat _ (VBool b1) => when (Bool.eqb b0 b1) | _ => None end
  | PU w n0 => match q with QFlat _ (VU w1 n1) => when (bw_eqb w w1 && N.eqb n0 n1) | _ => None end
  | PChar c0 => match q with QFlat _ (VChar c1) => when (N.eqb c0 c1) | _ => None end
  | PTuple ps =>
    match q with
    | QTuple _ vs => if Nat.eqb (length ps) (length vs) then q_match_list q_matches_inner ps vs acc else None
    | _ => None
    end
  | PSeq ps =>
    match q with
    | QSeq _ s => if Nat.eqb (length ps) (sk_len s) then q_match_list q_matches_inner ps (sk_to_list s) acc else None
    | _ => None
    end
  | PVariant l p' =>
    match q with QVariant l1 q' => if N.eqb l l1 then q_matches_inner p' q' acc else None | _ => None end
  | POption None => match q with QOption None => Some acc | _ => None end
  | POption (Some p') => match q with QOption (Some q') => q_matches_inner p' q' acc | _ => None end
  | PInt b =>
    match q with
    | QFlat _ v => match native_num v with Some n => when (bcontains b n) | None => None end
    | _ => None
    end
  | PZConst z =>
    match q with
    | QFlat _ (VNumeric c) => when (Z.eqb (tc_val c) z)
    | QFlat _ v => match native_num v with Some n => when (Z.eqb z (Z.of_N n)) | None => None end
    | _ => None
    end
  | PZRange b =>
    match q with
    | QFlat _ (VNumeric c) => when (zb_contains b (tc_val c))
    | QFlat _ v => match native_num v with Some n => when (zb_contains b (Z.of_N n)) | None => None end
    | _ => None
    end
  end.

(** ** Scopes *)

(** loc_decoder.rs:1105-1108 [enum ViewOrParsedValue], 1096-1102 [enum LocScope]
    and its frames 1119-1140 *)
Inductive qent := QEntView (c : rctx) | QEntVal (p : pval).
Inductive qscope (D : Type) :=
| QSEmpty
| QSMulti (parent : qscope D) (entries : list (label * qent))
| QSSingle (parent : qscope D) (x : label) (p : pval)
| QSDecoder (parent : qscope D) (x : label) (d : D)
| QSView (parent : qscope D) (x : label) (c : rctx).
Arguments QSEmpty {D}.
Arguments QSMulti {D} parent entries.
Arguments QSSingle {D} parent x p.
Arguments QSDecoder {D} parent x d.
Arguments QSView {D} parent x c.
(** The reverse scans of loc_decoder.rs:1205-1235, on the reversed entries *)
Fixpoint q_scan_value (x : label) (es : list (label * qent)) : option pval :=
  match es with
  | [] => None
  | (n, QEntVal v) :: es' => if N.eqb n x then Some v else q_scan_value x es'
  | (n, QEntView _) :: es' => q_scan_value x es'
  end.
Fixpoint q_scan_view (x : label) (es : list (label * qent)) : option rctx :=
  match es with
  | [] => None
  | (n, QEntView c) :: es' => if N.eqb n x then Some c else q_scan_view x es'
  | (n, QEntVal _) :: es' => q_scan_view x es'
  end.
Section Scopes.
Context {D : Type}.
(** loc_decoder.rs:1143-1151 [get_value_by_name], 1221-1235, 1265-1271 *)
Fixpoint q_get_value (x : label) (s : qscope D) : option pval :=
  match s with
  | QSEmpty => None
  | QSMulti p es => match q_scan_value x (rev es) with Some v => Some v | None => q_get_value x p end
  | QSSingle p n v => if N.eqb n x then Some v else q_get_value x p
  | QSDecoder p _ _ => q_get_value x p
  | QSView p _ _ => q_get_value x p
  end.
(** loc_decoder.rs:1153-1161 [get_decoder_by_name], 1291-1297 *)
Fixpoint q_get_decoder (x : label) (s : qscope D) : option D :=
  match s with
  | QSEmpty => None
  | QSMulti p _ => q_get_decoder x p
  | QSSingle p _ _ => q_get_decoder x p
  | QSDecoder p n d => if N.eqb n x then Some d else q_get_decoder x p
  | QSView p _ _ => q_get_decoder x p
  end.
(** loc_decoder.rs:1163-1171 [get_view_by_name], 1205-1219, 1313-1319 *)
Fixpoint q_get_view (x : label) (s : qscope D) : option rctx :=
  match s with
  | QSEmpty => None
  | QSMulti p es => match q_scan_view x (rev es) with Some c => Some c | None => q_get_view x p end
  | QSSingle p _ _ => q_get_view x p
  | QSDecoder p _ _ => q_get_view x p
  | QSView p n c => if N.eqb n x then Some c else q_get_view x p
  end.
(** loc_decoder.rs:580-585 [matches]: only the mapped wrappers are removed *)
Definition q_matches (q : pval) (s : qscope D) (p : pattern) : option (qscope D) :=
  option_map (fun bs => QSMulti s (map (fun b => (fst b, QEntVal (snd b))) bs))
             (q_matches_inner p (q_coerce q) []).
End Scopes.

(** ** Expressions *)

(** src/numeric/core.rs:1113-1132 [TryFrom<&ParsedValue> for StrictValue] *)
Fixpoint tc_of_pval (p : pval) : nres tconst :=
  match p with
  | QFlat _ v => tc_of_value v
  | QMapped _ p' | QBranch _ p' | QPermitOk p' | QPermitErr (Some p') => tc_of_pval p'
  | _ => NErr BadVariable
  end.
(** src/scope.rs:32-39 [EvalScope for LocScope] *)
Definition q_num_look {D} (s : qscope D) (x : label) : nres tconst :=
  match q_get_value x s with Some v => tc_of_pval v | None => NErr UnknownVar end.
Definition q_seq_of (p : pval) : outcome qvseq :=
  match q_get_sequence (q_coerce p) with Some s => Val s | None => Panic end.
(** loc_decoder.rs:788-803 [AsChar] *)
Definition q_as_char (v : value) : outcome value :=
  match v with VU _ _ => value_as_char v | _ => Panic end.
(** loc_decoder.rs:819-826 *)
Definition q_seq_ix (s : qvseq) (i : N) : outcome pval :=
  match s with
  | QVals s => sk_index s (N.to_nat i)
  | QRange lo hi => if N.ltb (lo + i) hi then Val (from_evaluated (VUsize (lo + i))) else Panic
  end.
(** loc_decoder.rs:840-847 *)
Definition q_seq_sub (s : qvseq) (start len : N) : outcome pval :=
  match s with
  | QVals s => omap q_synth_seq (sk_sub_seq s (N.to_nat start) (N.to_nat len))
  | QRange lo hi =>
    omap (fun r => from_evaluated (VEnumFromTo (N.of_nat (fst r)) (N.of_nat (snd r))))
         (sub_range (N.to_nat lo) (N.to_nat hi) (N.to_nat start) (N.to_nat len))
  end.
(** loc_decoder.rs:858-885 *)
Definition q_seq_inflate (s : qvseq) (start len : N) : outcome pval :=
  omap (fun l => q_synth_seq (Strict l)) (sub_seq_inflate (qvseq_list s) (N.to_nat start) (N.to_nat len)).

(** loc_decoder.rs:589-1063 [eval_with_loc], 1065-1069 [eval_value_with_loc],
    1071-1079 [eval_lambda_with_loc]; conventions as for [ValueModel.eval] *)
Fixpoint q_eval {D} (e : expr) (s : qscope D) {struct e} : outcome pval :=
  let ev e := omap (fun p => clone_value (q_coerce p)) (q_eval e s) in
  let lam f (arg : pval) : outcome value :=
    match f with
    | ELambda x body => omap (fun p => clone_value (q_coerce p)) (q_eval body (QSSingle s x arg))
    | _ => Panic
    end in
  let us e := obind (ev e) unwrap_usize in
  match e with
  | EVar x => match q_get_value x s with Some v => Val v | None => Panic end
  | EBool b => Val (from_evaluated (VBool b))
  | EU w n => Val (from_evaluated (VU w n))
  | ENumeric n => match neval (q_num_look s) n with NOk c => Val (from_evaluated (VNumeric c)) | _ => Panic end
  | ETuple es =>
    omap (fun vs => from_evaluated (VTuple vs)) (omapM (fun e => omap (fun p => clone_value (q_coerce p)) (q_eval e s)) es)
  | ETupleProj h i => obind (q_eval h s) (fun v => q_tuple_proj (q_coerce v) i)
  | ERecord fs =>
    obind (omapM (fun f => match f with (l, e) => omap (pair l) (q_eval e s) end) fs) collect_fields
  | ERecordProj h l => obind (q_eval h s) (fun v => q_record_proj (q_coerce v) l)
  | EVariant l e => omap (fun v => from_evaluated (VVariant l v)) (ev e)
  | ESeq es =>
    omap (fun vs => from_evaluated (VSeq (Strict vs))) (omapM (fun e => omap (fun p => clone_value (q_coerce p)) (q_eval e s)) es)
  | EMatch h bs =>
    obind (q_eval h s) (fun v =>
      (fix go (bs : list (pattern * expr)) : outcome pval :=
         match bs with
         | [] => Panic
         | (p, b) :: bs' =>
           match q_matches v s p with
           | Some s' => omap (fun r => from_evaluated (clone_value (q_coerce r))) (q_eval b s')
           | None => go bs'
           end
         end) bs)
  | EDestructure h p b =>
    obind (q_eval h s) (fun v =>
      match q_matches v s p with
      | Some s' => omap (fun r => from_evaluated (clone_value (q_coerce r))) (q_eval b s')
      | None => Panic
      end)
  | ELambda _ _ => Panic
  | EIntRel rel a b =>
    omap from_evaluated (obind (ev a) (fun l => obind (ev b) (fun r => value_int_rel rel l r)))
  | EArith op a b =>
    omap from_evaluated (obind (ev a) (fun l => obind (ev b) (fun r => value_arith op l r)))
  | EUnary op a => omap from_evaluated (obind (ev a) (value_unary op))
  | EAs w a => omap from_evaluated (obind (ev a) (value_as w))
  | EAsChar a => omap from_evaluated (obind (ev a) q_as_char)
  | EBytes be w a => omap from_evaluated (obind (ev a) (value_from_bytes be w))
  | ESeqLength a =>
    obind (q_eval a s) (fun v => omap (fun q => from_evaluated (VU B32 (as_u32 (qvseq_len q)))) (q_seq_of v))
  | ESeqIx a i => obind (q_eval a s) (fun v => obind (q_seq_of v) (fun q => obind (us i) (q_seq_ix q)))
  | ESubSeq a st ln =>
    obind (q_eval a s) (fun v => obind (q_seq_of v) (fun q =>
      obind (us st) (fun st => obind (us ln) (q_seq_sub q st))))
  | ESubSeqInflate a st ln =>
    obind (q_eval a s) (fun v => obind (q_seq_of v) (fun q =>
      obind (us st) (fun st => obind (us ln) (q_seq_inflate q st))))
  | EAppend a b =>
    obind (q_eval a s) (fun va => obind (q_eval b s) (fun vb =>
      obind (q_seq_of va) (fun qa => obind (q_seq_of vb) (fun qb =>
        if qvseq_is_empty qa then Val (q_coerce vb)
        else if qvseq_is_empty qb then Val (q_coerce va)
        else omap q_synth_seq (qvseq_append qa qb)))))
  | EFlatMap f a =>
    obind (q_eval a s) (fun v => obind (q_seq_of v) (fun q =>
      omap (fun ls => from_evaluated (VSeq (Strict (concat ls))))
           (omapM (fun x => omap sk_to_list (obind (lam f x) strict_seq)) (qvseq_list q))))
  | EFlatMapAccum f z _ a =>
    obind (q_eval a s) (fun v => obind (q_seq_of v) (fun q => obind (ev z) (fun z =>
      omap (fun st : value * list value => from_evaluated (VSeq (Strict (snd st))))
        (ofoldM (fun (st : value * list value) x =>
           obind (lam f (from_evaluated (VTuple [fst st; clone_value x]))) (fun r =>
             obind (accum_pair r) (fun pr => Val (fst pr, snd st ++ snd pr))))
           (z, []) (qvseq_list q)))))
  | ELeftFold f z _ a =>
    obind (q_eval a s) (fun v => obind (q_seq_of v) (fun q => obind (ev z) (fun z =>
      omap from_evaluated
        (ofoldM (fun acc x => lam f (from_evaluated (VTuple [acc; clone_value x]))) z (qvseq_list q)))))
  | EFindByKey sorted k q a =>
    obind (q_eval a s) (fun v => obind (q_seq_of v) (fun sq =>
      match sq with
      | QRange _ _ => Panic
      | QVals vs =>
        obind (ev q) (fun query =>
          let found (r : outcome (option nat)) :=
            obind r (fun o => match o with
                              | Some ix => omap (fun x => QOption (Some x)) (sk_index vs ix)
                              | None => Val (from_evaluated (VOption None))
                              end) in
          if sorted then
            match find_sorted (compare_as_key query) (sk_len vs)
                    (fun i => obind (sk_index vs i) (fun x => lam k x)) with
            | Some r => found r
            | None => Panic
            end
          else found (find_unsorted (eq_key query) (fun x => lam k x) 0 (sk_to_list vs)))
      end))
  | EFlatMapList f _ a =>
    obind (ev a) (fun v => obind (strict_seq v) (fun q =>
      omap (fun l => from_evaluated (VSeq (Strict l)))
        (ofoldM (fun acc x =>
           obind (lam f (from_evaluated (VTuple [VSeq (Strict acc); x]))) (fun r =>
             omap (fun t => acc ++ sk_to_list t) (strict_seq r))) [] (sk_to_list q))))
  | EDup n a =>
    obind (us n) (fun n => omap (fun v => from_evaluated (VSeq (Dup (N.to_nat n) v))) (ev a))
  | EEnumFromTo a b => obind (us a) (fun lo => omap (fun hi => from_evaluated (VEnumFromTo lo hi)) (us b))
  | ELiftOption None => Val (from_evaluated (VOption None))
  | ELiftOption (Some a) => omap (fun v => from_evaluated (VOption (Some v))) (ev a)
  end.
Definition q_eval_value {D} (e : expr) (s : qscope D) : outcome value :=
  omap (fun p => clone_value (q_coerce p)) (q_eval e s).
Definition q_eval_lambda {D} (f : expr) (s : qscope D) (arg : pval) : outcome value :=
  match f with
  | ELambda x body => q_eval_value body (QSSingle s x arg)
  | _ => Panic
  end.
Definition q_eval_usize {D} (e : expr) (s : qscope D) : outcome N := obind (q_eval_value e s) unwrap_usize.
Definition q_eval_bool {D} (e : expr) (s : qscope D) : outcome bool := obind (q_eval_value e s) unwrap_bool.
Definition q_lambda_bool {D} (e : expr) (s : qscope D) (v : pval) : outcome bool :=
  obind (q_eval_lambda e s v) unwrap_bool.

(** loc_decoder.rs:1917-1935 [eval_view_expr_with_loc] *)
Fixpoint q_eval_view {D} (s : qscope D) (v : viewexpr) : outcome (rctx + derr) :=
  match v with
  | VEVar x => match q_get_view x s with Some c => Val (inl c) | None => Panic end
  | VEOffset b e =>
    obind (q_eval_usize e s) (fun off =>
    obind (q_eval_view s b) (fun r =>
      match r with
      | inr err => Val (inr err)
      | inl c =>
        obind (rc_split_at c off) (fun o =>
          match o with
          | Some (_, w) => Val (inl w)
          | None => Val (inr (KOverrun off (roff c)))
          end)
      end))
  end.
Definition q_with_view {D A} (s : qscope D) (v : viewexpr) (k : rctx -> dres A) : dres A :=
  rlet (q_eval_view s v) (fun r => match r with inl c => k c | inr e => RErr e end).

(** ** The interpreter *)

Section Loops.
Context {Sc Dc : Type} (p : Sc -> Dc -> rctx -> dres pval).
(** loc_decoder.rs:1417-1446, 1531-1568: folds over a list of bodies *)
Fixpoint qseq (l : list (Sc * Dc)) (c : rctx) : dres (list pval) :=
  match l with
  | [] => ROk [] c []
  | (s, d) :: r => rbind (p s d c) (fun v c' => rmap (cons v) (qseq r c'))
  end.
(** loc_decoder.rs:1406-1416 *)
Fixpoint qpar (i : nat) (s : Sc) (ds : list Dc) (c : rctx) : dres pval :=
  match ds with
  | [] => RErr (KFail (roff c))
  | d :: r =>
    match p s d c with
    | RErr _ => qpar (S i) s r c
    | o => rmap (QBranch i) o
    end
  end.
Context (s : Sc) (d : Dc) (t : mtree).
(** loc_decoder.rs:1447-1467 [While] *)
Fixpoint qwhile (fuel : nat) (c : rctx) : dres (list pval) :=
  match fuel with
  | O => RFuel
  | S fuel =>
    match tree_matches t c with
    | None => RErr (KNoValidBranch (roff c))
    | Some O => rbind (p s d c) (fun v c' => rmap (cons v) (qwhile fuel c'))
    | Some (S _) => ROk [] c []
    end
  end.
(** loc_decoder.rs:1468-1490 [Until] *)
Fixpoint quntil (fuel : nat) (c : rctx) : dres (list pval) :=
  match fuel with
  | O => RFuel
  | S fuel =>
    rbind (p s d c) (fun v c' =>
      match tree_matches t c' with
      | None => RErr (KNoValidBranch (roff c'))
      | Some O => ROk [v] c' []
      | Some (S _) => rmap (cons v) (quntil fuel c')
      end)
  end.
(** loc_decoder.rs:1569-1601 [RepeatBetween]: as in [DecoderModel.pbetween], the
    lookahead is always made from the initial cursor [c0] *)
Fixpoint qbetween (min max : N) (c0 : rctx) (len : nat) (fuel : nat) (c : rctx) : dres (list pval) :=
  match fuel with
  | O => RFuel
  | S fuel =>
    match tree_matches t c0 with
    | None => RErr (KNoValidBranch (roff c0))
    | Some i =>
      if Nat.eqb i 0 || N.eqb (N.of_nat len) max then
        if N.ltb (N.of_nat len) min then RPanic else ROk [] c []
      else rbind (p s d c) (fun v c' => rmap (cons v) (qbetween min max c0 (S len) fuel c'))
    end
  end.
(** loc_decoder.rs:1611-1632 [RepeatUntilLast], 1633-1655 [RepeatUntilSeq] *)
Fixpoint quntil_done (stop : list pval -> pval -> outcome bool) (acc : list pval) (fuel : nat) (c : rctx) : dres (list pval) :=
  match fuel with
  | O => RFuel
  | S fuel =>
    rbind (p s d c) (fun v c' =>
      rlet (stop acc v) (fun b : bool =>
        if b then ROk (acc ++ [v]) c' [] else quntil_done stop (acc ++ [v]) fuel c'))
  end.
(** loc_decoder.rs:1656-1687 [AccumUntil] *)
Fixpoint qaccum (stop : value -> list pval -> outcome bool) (update : value -> pval -> outcome value)
    (acc : value) (vs : list pval) (fuel : nat) (c : rctx) : dres (value * list pval) :=
  match fuel with
  | O => RFuel
  | S fuel =>
    rlet (stop acc vs) (fun b : bool =>
      if b then ROk (acc, vs) c []
      else rbind (p s d c) (fun v c' =>
        rlet (update acc v) (fun acc' => qaccum stop update acc' (vs ++ [v]) fuel c')))
  end.
End Loops.

(** The result with the location of what was consumed since [start]
    (e.g. loc_decoder.rs:1428-1431). The cursor never moves backwards
    ([DecoderProofs.parse_adv]), so the subtraction does not underflow. *)
Definition spanning {A} (start : nat) (f : A -> nat -> nat -> pval) (r : dres A) : dres pval :=
  rbind r (fun a c' => ROk (f a start (roff c' - start)) c' []).

(** loc_decoder.rs:1938-1972 [read_base] *)
Definition q_read_base (k : basekind) (c : rctx) : dres pval :=
  match bk_width k with
  | B8 =>
    match rc_read_byte c with
    | Some (b, c') => ROk (QFlat (LBuf (roff c) 1) (VU B8 b)) c' []
    | None => RErr (KOverbyte (roff c))
    end
  | w =>
    if bk_be k then
      match rc_read_be (N.to_nat (nbits w / 8)) c with
      | Some (n, c') => ROk (QFlat (LBuf (roff c) (N.to_nat (nbits w / 8))) (VU w n)) c' []
      | None => RErr (KOverrun (nbits w / 8) (roff c))
      end
    else RPanic
  end.
(** loc_decoder.rs:1844-1856: the byte at [view_window.offset + i] *)
Definition q_read_u8 (c : rctx) : dres pval :=
  match rc_read_byte c with
  | Some (b, c') => ROk (QFlat (LBuf (roff c) 1) (VU B8 b)) c' []
  | None => RErr (KOverbyte (roff c))
  end.
Fixpoint q_read_n (rd : rctx -> dres pval) (len : nat) (c : rctx) : dres (list pval) :=
  match len with
  | O => ROk [] c []
  | S len => rbind (rd c) (fun v c' => rmap (cons v) (q_read_n rd len c'))
  end.
(** loc_decoder.rs:1807-1821, with [value_to_vec_usize] (1974-1985) and
    [make_huffman_codes] (1987-2037), which are copies of those of decoder.rs *)
Definition q_dyn_format {D} (dy : dynformat) (s : qscope D) : outcome format :=
  match dy with
  | DHuffman le ve =>
    obind (obind (q_eval le s) (fun p => value_to_vec_usize (clone_value p))) (fun lengths =>
    obind (match ve with
           | None => Val lengths
           | Some e => obind (obind (q_eval e s) (fun p => value_to_vec_usize (clone_value p)))
                             (fun values => HuffmanModel.reorder lengths values)
           end) huffman_format)
  end.
(** loc_decoder.rs:1794-1800 *)
Fixpoint q_first_match {D Dc} (v : pval) (s : qscope D) (i : nat) (bs : list (pattern * Dc)) : option (nat * qscope D * Dc) :=
  match bs with
  | [] => None
  | (p, d) :: r => match q_matches v s p with Some s' => Some (i, s', d) | None => q_first_match v s (S i) r end
  end.
(** loc_decoder.rs:1340-1348: the scope of a call; the arguments keep their
    wrappers *)
Definition q_call_views {D} (s : qscope D) (vs : list (label * viewexpr)) : outcome (list (label * qent) + derr) :=
  (fix go (vs : list (label * viewexpr)) :=
    match vs with
    | [] => Val (inl [])
    | (x, v) :: r =>
      obind (q_eval_view s v) (fun o =>
        match o with
        | inr e => Val (inr e)
        | inl c => omap (fun o => match o with inl l => inl ((x, QEntView c) :: l) | inr e => inr e end) (go r)
        end)
    end) vs.
Definition q_call_values {D} (s : qscope D) (es : list (label * expr)) : outcome (list (label * qent)) :=
  omapM (fun xe => match xe with (x, e) => omap (fun v => (x, QEntVal v)) (q_eval e s) end) es.
Definition q_call_scope {D} (s : qscope D) (es : list (label * expr)) (vs : list (label * viewexpr)) : outcome (qscope D + derr) :=
  obind (q_call_values s es) (fun l =>
  omap (fun o => match o with inl l' => inl (QSMulti QSEmpty (l ++ l')) | inr e => inr e end) (q_call_views s vs)).

Section Parse.
Context (bld : fmodule -> list format -> next -> outcome (option mtree)).
Context (P : program).

(** loc_decoder.rs:1331-1915 [parse_with_loc]. The value inside a failed
    condition's error is recorded without its locations. *)
Fixpoint q_parse (fuel : nat) (s : qscope decoder) (d : decoder) (c : rctx) {struct fuel} : dres pval :=
  match fuel with
  | O => RFuel
  | S fuel =>
    let start := roff c in
    match d with
    | DCall n es vs =>
      rlet (q_call_scope s es vs) (fun o =>
        match o with
        | inr e => RErr e
        | inl s' => match nth_error P n with Some d' => q_parse fuel s' d' c | None => RPanic end
        end)
    | DPhantom => ROk q_phantom c []
    | DFail => RErr (KFail (roff c))
    | DPos => ROk (from_evaluated (VU B64 (N.of_nat (roff c)))) c []
    | DSkipRemainder =>
      let c' := rc_skip_remainder c in ROk (q_unit start (roff c' - start)) c' []
    | DEndOfInput =>
      match rc_read_byte c with
      | None => ROk (q_unit start 0) c []
      | Some (b, _) => RErr (KTrailing b (roff c))
      end
    | DAlign n =>
      if N.eqb n 0 then RPanic
      else
        let skip := ((n - N.of_nat (roff c) mod n) mod n)%N in
        rlet (rc_split_at c skip) (fun o =>
          match o with
          | Some (_, c') => ROk (q_unit start (N.to_nat skip)) c' []
          | None => RErr (KOverrun skip (roff c))
          end)
    | DByte bs =>
      match rc_read_byte c with
      | None => RErr (KOverbyte (roff c))
      | Some (b, c') =>
        if ByteSetModel.contains bs b then ROk (QFlat (LBuf start 1) (VU B8 b)) c' []
        else RErr (KUnexpected b bs (roff c'))
      end
    | DVariant l d => rmap (QVariant l) (q_parse fuel s d c)
    | DBranch t ds =>
      match tree_matches t c with
      | None => RErr (KNoValidBranch (roff c))
      | Some i => match nth_error ds i with Some d => rmap (QBranch i) (q_parse fuel s d c) | None => RPanic end
      end
    | DParallel ds => qpar (q_parse fuel) 0 s ds c
    | DTuple ds => spanning start q_tuple (qseq (q_parse fuel) (map (pair s) ds) c)
    | DSequence ds => spanning start q_seq (qseq (q_parse fuel) (map (pair s) ds) c)
    | DWhile t d => spanning start q_seq (qwhile (q_parse fuel) s d t fuel c)
    | DUntil t d => spanning start q_seq (quntil (q_parse fuel) s d t fuel c)
    | DDecodeBytes e d =>
      rlet (obind (q_eval_value e s) (fun v =>
              match get_sequence v with Some q => omapM get_as_u8 (vseq_list q) | None => Panic end)) (fun bytes =>
        rbind (q_parse fuel s d (rc_new bytes)) (fun v c' =>
          match rc_read_byte c' with
          | Some (b, _) => ROk v c [KTrailing b (roff c')]
          | None => ROk v c []
          end))
    | DParseFromView v d => q_with_view s v (fun w => rback c (q_parse fuel s d w))
    | DLetFormat da x db => rbind (q_parse fuel s da c) (fun v c' => q_parse fuel (QSSingle s x v) db c')
    | DMonadSeq da db => rbind (q_parse fuel s da c) (fun _ c' => q_parse fuel s db c')
    | DForEach e x d =>
      rlet (obind (q_eval e s) (fun v => match q_get_sequence v with Some q => Val (qvseq_list q) | None => Panic end)) (fun l =>
        spanning start q_seq (qseq (q_parse fuel) (map (fun v => (QSSingle s x v, d)) l) c))
    | DRepeatCount e d =>
      rlet (q_eval_usize e s) (fun k =>
        spanning start q_seq (qseq (q_parse fuel) (repeat (s, d) (N.to_nat k)) c))
    | DRepeatBetween t e1 e2 d =>
      rlet (q_eval_usize e1 s) (fun min => rlet (q_eval_usize e2 s) (fun max =>
        spanning start q_seq (qbetween (q_parse fuel) s d t min max c 0 fuel c)))
    | DMaybe e d =>
      rlet (q_eval_bool e s) (fun b : bool =>
        if b then rmap (fun v => QOption (Some v)) (q_parse fuel s d c) else ROk (QOption None) c [])
    | DRepeatUntilLast e d =>
      spanning start q_seq (quntil_done (q_parse fuel) s d (fun _ v => q_lambda_bool e s v) [] fuel c)
    | DRepeatUntilSeq e d =>
      (* loc_decoder.rs:1652: the length is computed from the initial cursor *)
      rmap (fun vs => q_seq vs start (roff c - start))
        (quntil_done (q_parse fuel) s d (fun acc v => q_lambda_bool e s (q_synth_seq (Strict (acc ++ [v])))) [] fuel c)
    | DAccumUntil fd fu i d =>
      rlet (q_eval_value i s) (fun acc =>
        spanning start (fun r o l => q_tuple [from_evaluated (fst r); q_seq (snd r) o l] o l)
          (qaccum (q_parse fuel) s d
             (fun a vs => q_lambda_bool fd s (from_evaluated (VTuple [a; clone_value (q_synth_seq (Strict vs))])))
             (fun a v => q_eval_lambda fu s (from_evaluated (VTuple [a; clone_value v]))) acc [] fuel c))
    | DPeek d => rback c (q_parse fuel s d c)
    | DPeekNot d =>
      match q_parse fuel s d c with
      | ROk _ _ _ => RErr (KFail (roff c))
      | RErr _ => ROk (q_unit start 0) c []
      | RPanic => RPanic
      | RFuel => RFuel
      end
    | DSlice e d =>
      rlet (q_eval_usize e s) (fun size =>
      rlet (rc_split_at c size) (fun o =>
        match o with
        | Some (slice, c') => rback c' (q_parse fuel s d slice)
        | None => RErr (KOverrun size (roff c))
        end))
    | DBits d =>
      rlet (rc_remaining c) (fun rem =>
        rbind (q_parse fuel s d (rc_new (bits_of rem))) (fun v cb =>
          rlet (rc_remaining cb) (fun remb =>
            let bytes_remain := length remb / 8 in
            if length rem <? bytes_remain then RPanic
            else
              let bytes_read := N.of_nat (length rem - bytes_remain) in
              rlet (rc_split_at c bytes_read) (fun o =>
                match o with
                | Some (_, c') => ROk v c' []
                | None => RErr (KOverrun bytes_read (roff c))
                end))))
    | DWithRelativeOffset base off d =>
      rlet (q_eval_usize base s) (fun b => rlet (q_eval_usize off s) (fun o =>
        if N.ltb (b + o) w64 then
          match rc_seek_to c (b + o) with
          | Some c' => rback c (q_parse fuel s d c')
          | None => RErr (KSeekPastEnd (b + o) (length (rinput c)))
          end
        else RPanic))
    | DMap d e =>
      rbind (q_parse fuel s d c) (fun orig c' =>
        rlet (q_eval_lambda e s orig) (fun v => ROk (QMapped orig (inherit orig v)) c' []))
    | DWhere d e strict =>
      rbind (q_parse fuel s d c) (fun v c' =>
        rlet (q_lambda_bool e s v) (fun b : bool =>
          if b then ROk v c' []
          else if strict then RErr (KBadWhere (to_value v)) else ROk v c' [KBadWhere (to_value v)]))
    | DCompute e => rlet (q_eval e s) (fun v => ROk v c [])
    | DLet x e d => rlet (q_eval e s) (fun v => q_parse fuel (QSSingle s x v) d c)
    | DLetView x d => q_parse fuel (QSView s x c) d c
    | DMatch e bs =>
      rlet (q_eval e s) (fun v =>
        match q_first_match v s 0 bs with
        | Some (i, s', d) => rmap (QBranch i) (q_parse fuel s' d c)
        | None => RPanic
        end)
    | DDynamic x dy d =>
      rlet (q_dyn_format dy s) (fun f =>
        match compile_one bld f with
        | COk dyn => q_parse fuel (QSDecoder s x dyn) d c
        | _ => RPanic
        end)
    | DApply x => match q_get_decoder x s with Some d => q_parse fuel s d c | None => RPanic end
    | DLiftedOption None => ROk (from_evaluated (VOption None)) c []
    | DLiftedOption (Some d) => rmap (fun v => QOption (Some v)) (q_parse fuel s d c)
    | DCaptureBytes v len =>
      rlet (q_eval_usize len s) (fun k => q_with_view s v (fun w =>
        rback c (rmap (fun vs => q_seq vs (roff w) (N.to_nat k)) (q_read_n q_read_u8 (N.to_nat k) w))))
    | DReadArray v len k =>
      rlet (q_eval_usize len s) (fun n => q_with_view s v (fun w =>
        rback c (rmap (fun vs => q_seq vs (roff w) (N.to_nat n * N.to_nat (nbits (bk_width k) / 8)))
                      (q_read_n (q_read_base k) (N.to_nat n) w))))
    | DReifyView v => q_with_view s v (fun w => ROk (from_evaluated (VView (roff w))) c [])
    | DPermit d e =>
      match q_parse fuel s d c with
      | ROk v c' es => ROk (QPermitOk v) c' es
      | RErr er => rlet (q_eval e s) (fun v => ROk (QPermitErr (Some v)) c [er])
      | RPanic => RPanic
      | RFuel => RFuel
      end
    end
  end.

(** loc_decoder.rs:1083-1091 [run_with_loc] *)
Definition run_with_loc (fuel : nat) (c : rctx) : dres pval :=
  match P with [] => RPanic | d :: _ => q_parse fuel QSEmpty d c end.
End Parse.
