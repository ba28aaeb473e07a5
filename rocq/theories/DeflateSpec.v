(** Compressed data streams as RFC 1951 describes them, on a list of bits (0 and 1)
    in the order of the stream. Nothing here comes from the formats.
    [conform = true] and [tables = true] is the RFC; [conform = false] leaves out what
    the RFC forbids and a lenient reader may ignore, [tables = false] lets tables have
    too many codes. *)
From Verif Require Import Base.
Open Scope nat_scope.

(** The bits [l] are at position [i]. *)
Definition at_pos (bs : list N) (i : nat) (l : list N) : Prop := exists pre post, bs = pre ++ l ++ post /\ length pre = i.
(** 3.1.1: numbers start with the least significant bit, Huffman codes with the most
    significant one. *)
Fixpoint lsb_first (l : list N) : N := match l with [] => 0%N | b :: r => (b + 2 * lsb_first r)%N end.
Definition msb_first (l : list N) : N := lsb_first (rev l).
(** The number [x] is written on the [n] bits from [i] to [j]. *)
Definition Num (bs : list N) (n i j : nat) (x : N) : Prop :=
  exists l, length l = n /\ at_pos bs i l /\ j = i + n /\ x = lsb_first l.

(** 3.2.2: step 1, [bl_count]; step 2, the smallest code of each length; step 3, the
    codes of the symbols of a length are consecutive. *)
Definition bl_count (lens : list nat) (l : nat) : N := if Nat.eqb l 0 then 0%N else N.of_nat (count_occ Nat.eq_dec lens l).
Fixpoint next_code (lens : list nat) (l : nat) : N :=
  match l with O => 0%N | S k => (2 * (next_code lens k + bl_count lens k))%N end.
Definition code_of (lens : list nat) (sym l : nat) : N := (next_code lens l + bl_count (firstn sym lens) l)%N.
(** The code of symbol [sym] of the table [lens] is at [i], up to [j]. (The remainder
    only matters in tables that have too many codes.) *)
Definition Symbol (lens : list nat) (bs : list N) (i j sym : nat) : Prop :=
  exists l c, nth_error lens sym = Some l /\ l <> 0 /\ length c = l /\ at_pos bs i c /\ j = i + l /\
    msb_first c = (code_of lens sym l mod 2 ^ N.of_nat l)%N.
(** There are not too many codes: the sum of the [2 ^ (15 - l)] is at most [2 ^ 15]. *)
Definition not_too_many (lens : list nat) : Prop :=
  (fold_right (fun l n => (if Nat.eqb l 0 then 0 else 2 ^ N.of_nat (15 - l)) + n) 0 lens <= 2 ^ 15)%N.

(** 3.2.5: the lengths and distances. Each symbol starts where the one before it
    ends; [extra] is its number of extra bits. *)
Fixpoint starts (first : nat) (extra : nat -> nat) (k : nat) : nat :=
  match k with O => first | S k' => starts first extra k' + 2 ^ extra k' end.
(** Length symbols 257 to 285 are [k = 0] to [28]: eight without extra bits, then
    four with each number of them; the last one is for 258 alone. *)
Definition length_extra (k : nat) : nat := if Nat.eqb k 28 then 0 else k / 4 - 1.
Definition length_start (k : nat) : nat := if Nat.eqb k 28 then 258 else starts 3 length_extra k.
(** Distance symbols 0 to 29: four without extra bits, then two with each number. *)
Definition distance_extra (d : nat) : nat := d / 2 - 1.
Definition distance_start (d : nat) : nat := starts 1 distance_extra d.

(** What a block says: literal bytes and copies of earlier data. *)
Inductive element := Literal (b : N) | Copy (len dist : nat).
(** The data written after [out]: a copy repeats what is [dist] bytes before, including
    bytes of the copy itself. *)
Inductive Writes : list N -> list element -> list N -> Prop :=
| WritesNil out : Writes out [] out
| WritesLiteral out b es out' : Writes (out ++ [b]) es out' -> Writes out (Literal b :: es) out'
| WritesCopy out len dist new es out' : 1 <= dist <= length out -> length new = len ->
    (forall k, k < len -> nth_error (out ++ new) (length out + k) = nth_error (out ++ new) (length out + k - dist)) ->
    Writes (out ++ new) es out' -> Writes out (Copy len dist :: es) out'.

Section Stream.
Context (conform tables : bool) (bs : list N).

(** 3.2.3, 3.2.5: the compressed data of a block, up to the end-of-block symbol;
    [lit] and [dist] are the two codes. *)
Inductive Elements (lit dist : nat -> nat -> nat -> Prop) : nat -> nat -> list element -> Prop :=
| ElementsEnd i j : lit i j 256 -> Elements lit dist i j []
| ElementsLiteral i j k b es : lit i j b -> b < 256 -> Elements lit dist j k es ->
    Elements lit dist i k (Literal (N.of_nat b) :: es)
| ElementsCopy i i1 i2 i3 i4 k sym x d y es :
    lit i i1 sym -> 257 <= sym <= 285 -> Num bs (length_extra (sym - 257)) i1 i2 x ->
    dist i2 i3 d -> d < 30 -> Num bs (distance_extra d) i3 i4 y ->
    Elements lit dist i4 k es ->
    Elements lit dist i k (Copy (length_start (sym - 257) + N.to_nat x) (distance_start d + N.to_nat y) :: es)
| ElementsReserved i j k sym es : conform = false -> lit i j sym -> 286 <= sym <= 287 -> Elements lit dist j k es ->
    Elements lit dist i k es.

(** 3.2.6: the fixed codes *)
Definition fixed_lengths : list nat := repeat 8 144 ++ repeat 9 112 ++ repeat 7 24 ++ repeat 8 8.
Definition FixedDistance (i j d : nat) : Prop :=
  exists c, length c = 5 /\ at_pos bs i c /\ j = i + 5 /\ N.of_nat d = msb_first c.

(** 3.2.7: the code lengths of the alphabet of code lengths, in an odd order *)
Definition order : list nat := [16; 17; 18; 0; 8; 7; 9; 6; 10; 5; 11; 4; 12; 3; 13; 2; 14; 1; 15].
Fixpoint position (x : nat) (l : list nat) : nat :=
  match l with [] => 0 | y :: l' => if Nat.eqb y x then 0 else S (position x l') end.
Definition in_order (ls : list nat) : list nat := map (fun sym => nth (position sym order) ls 0) (seq 0 19).
(** ... and the code lengths themselves, after [done], until there are [total]: 16 repeats
    the last one 3 to 6 times, 17 and 18 are runs of zeros. *)
Inductive Lengths (lens : list nat) (total : nat) : nat -> nat -> list nat -> list nat -> Prop :=
| LengthsDone i done : total <= length done -> (conform = true -> length done = total) -> Lengths lens total i i done done
| LengthsOne i j k sym done all : length done < total -> Symbol lens bs i j sym -> sym < 16 ->
    Lengths lens total j k (done ++ [sym]) all -> Lengths lens total i k done all
| LengthsRepeat i i1 j k x last done all : length (done ++ [last]) < total -> Symbol lens bs i i1 16 -> Num bs 2 i1 j x ->
    Lengths lens total j k (done ++ [last] ++ repeat last (3 + N.to_nat x)) all -> Lengths lens total i k (done ++ [last]) all
| LengthsZeros i i1 j k x done all : length done < total -> Symbol lens bs i i1 17 -> Num bs 3 i1 j x ->
    Lengths lens total j k (done ++ repeat 0 (3 + N.to_nat x)) all -> Lengths lens total i k done all
| LengthsManyZeros i i1 j k x done all : length done < total -> Symbol lens bs i i1 18 -> Num bs 7 i1 j x ->
    Lengths lens total j k (done ++ repeat 0 (11 + N.to_nat x)) all -> Lengths lens total i k done all.

(** Numbers of the same width, one after the other. *)
Inductive Nums (n : nat) : nat -> nat -> list N -> Prop :=
| NumsNil i : Nums n i i []
| NumsCons i j k x xs : Num bs n i j x -> Nums n j k xs -> Nums n i k (x :: xs).

(** 3.2.3, 3.2.4, 3.2.6, 3.2.7: the rest of a block of each type, from [i] to [j] *)
Inductive Body : N -> nat -> nat -> list element -> Prop :=
| Stored i i0 i1 i2 j len nlen bytes : i0 mod 8 = 0 -> i <= i0 < i + 8 ->
    Num bs 16 i0 i1 len -> Num bs 16 i1 i2 nlen -> (conform = true -> (len + nlen = 65535)%N) ->
    length bytes = N.to_nat len -> Nums 8 i2 j bytes ->
    Body 0 i j (map Literal bytes)
| Fixed i j es : Elements (Symbol fixed_lengths bs) FixedDistance i j es -> Body 1 i j es
| Dynamic i i1 i2 i3 i4 i5 j hlit hdist hclen ls lens es :
    Num bs 5 i i1 hlit -> Num bs 5 i1 i2 hdist -> Num bs 4 i2 i3 hclen ->
    length ls = N.to_nat hclen + 4 -> Nums 3 i3 i4 ls ->
    let cls := in_order (map N.to_nat ls) in
    let nlit := N.to_nat hlit + 257 in
    let ndist := N.to_nat hdist + 1 in
    Lengths cls (nlit + ndist) i4 i5 [] lens ->
    let lits := firstn nlit lens in
    let dists := firstn ndist (skipn nlit lens) in
    (tables = true -> not_too_many cls /\ not_too_many lits /\ not_too_many dists) ->
    Elements (Symbol lits bs) (Symbol dists bs) i5 j es -> Body 2 i j es.

(** 3.2.3: a stream is blocks, the last one marked *)
Inductive Blocks : nat -> nat -> list element -> Prop :=
| LastBlock i i1 i2 j t es : Num bs 1 i i1 1 -> Num bs 2 i1 i2 t -> Body t i2 j es -> Blocks i j es
| MoreBlocks i i1 i2 j k t es es' : Num bs 1 i i1 0 -> Num bs 2 i1 i2 t -> Body t i2 j es -> Blocks j k es' ->
    Blocks i k (es ++ es').
(** The stream from [i] to [j] stands for [data]. *)
Definition Inflates (i j : nat) (data : list N) : Prop := exists es, Blocks i j es /\ Writes [] es data.
End Stream.
