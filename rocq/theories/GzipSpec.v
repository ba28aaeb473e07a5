(** Compressed files as RFC 1950 (zlib) and RFC 1952 (gzip) describe them, on a list
    of bytes. Nothing here comes from the formats.
    [conform = true] is the RFC; [conform = false] leaves out what a reader of the
    format ignores: checksums, methods, reserved bits. *)
From Verif Require Import Base RecordSpec DeflateSpec.
Open Scope nat_scope.

(** The bits of bytes, each from the least significant one (RFC 1951, 3.1.1). *)
Definition stream_bits (bytes : list N) : list N :=
  flat_map (fun b => map (fun k => ((b / 2 ^ N.of_nat k) mod 2)%N) (seq 0 8)) bytes.
Definition flag (k b : N) : bool := N.eqb ((b / 2 ^ k) mod 2) 1.

(** RFC 1952, 8: CRC-32 *)
Definition crc_bit (c : N) : N := if N.odd c then N.lxor 3988292384 (N.div2 c) else N.div2 c.
Definition crc_byte (c b : N) : N := Nat.iter 8 crc_bit (N.lxor c b).
Definition crc32 (bytes : list N) : N := N.lxor (fold_left crc_byte bytes 4294967295%N) 4294967295.
(** RFC 1950, 9: Adler-32 *)
Definition adler_step (ab : N * N) (b : N) : N * N :=
  let a' := ((fst ab + b) mod 65521)%N in (a', ((snd ab + a') mod 65521)%N).
Definition adler32 (bytes : list N) : N := let (a, b) := fold_left adler_step bytes (1, 0)%N in (65536 * b + a)%N.

(** What a gzip member says; the subfields of the extra field are their two
    identifying bytes and their data. *)
Record member := GzMember {
  m_extra : option (list (N * N * list N)); m_name : option (list N); m_comment : option (list N); m_data : list N }.

Section Containers.
Context (conform tables : bool) (buf : list N).
(** The bytes [l] are those from [i] to [j]. *)
Definition Bytes (i j : nat) (l : list N) : Prop := at_pos buf i l /\ j = i + length l.
Definition Optional {A} (present : bool) (P : nat -> nat -> A -> Prop) (i j : nat) (o : option A) : Prop :=
  if present then exists a, o = Some a /\ P i j a else o = None /\ j = i.
(** Compressed data, which begin and end with a byte *)
Definition Deflated (i j : nat) (data : list N) : Prop :=
  exists k, i <= length buf /\ Inflates conform tables (stream_bits (skipn i buf)) 0 k data /\ j = i + (k + 7) / 8.

(** RFC 1952, 2.3: a string ended by a zero *)
Definition ZString (i j : nat) (l : list N) : Prop := Bytes i j (l ++ [0%N]) /\ Forall (fun b => b <> 0%N) l.
(** 2.3.1.1: the subfields of the extra field, in [i..j], before [stop] *)
Inductive Subfields (stop : nat) : nat -> nat -> list (N * N * list N) -> Prop :=
| SubfieldsNil i : Subfields stop i i []
| SubfieldsCons i j k si1 si2 len data rest : Bytes i j ([si1; si2] ++ len ++ data) -> length len = 2 ->
    N.of_nat (length data) = little len -> j <= stop -> Subfields stop j k rest ->
    Subfields stop i k ((si1, si2, data) :: rest).
Definition Extra (i j : nat) (subs : list (N * N * list N)) : Prop :=
  exists len k, Bytes i (i + 2) len /\ j = i + 2 + N.to_nat (little len) /\ j <= length buf /\
    Subfields j (i + 2) k subs /\ (conform = true -> k = j).
Definition HeaderCrc (i j : nat) (crc : list N) : Prop := Bytes i j crc /\ length crc = 2.
(** 2.3: a member *)
Inductive Member : nat -> nat -> member -> Prop :=
| MemberAt i i1 i2 i3 i4 i5 j cm flg mtime xfl os extra name comment hcrc data crc isize :
    Bytes i (i + 10) ([31; 139; cm; flg]%N ++ mtime ++ [xfl; os]) ->
    (conform = true -> cm = 8%N /\ (flg < 32)%N) ->
    Optional (flag 2 flg) Extra (i + 10) i1 extra ->
    Optional (flag 3 flg) ZString i1 i2 name ->
    Optional (flag 4 flg) ZString i2 i3 comment ->
    Optional (flag 1 flg) HeaderCrc i3 i4 hcrc ->
    (conform = true -> forall c h, hcrc = Some c -> Bytes i i3 h -> little c = (crc32 h mod 65536)%N) ->
    Deflated i4 i5 data ->
    Bytes i5 j (crc ++ isize) -> length crc = 4 -> length isize = 4 ->
    (conform = true -> little crc = crc32 data /\ little isize = (N.of_nat (length data) mod 2 ^ 32)%N) ->
    Member i j (GzMember extra name comment data).
(** 2.2: a file is members, one after the other *)
Inductive Members : nat -> nat -> list member -> Prop :=
| MembersOne i j m : Member i j m -> Members i j [m]
| MembersMore i j k m ms : Member i j m -> Members j k ms -> Members i k (m :: ms).

(** RFC 1950, 2.2: a zlib stream. Method 8 is asked for by the formats too. *)
Inductive Zlib : nat -> nat -> list N -> Prop :=
| ZlibAt i i1 i2 j cmf flg dictid data adler :
    Bytes i (i + 2) [cmf; flg] -> (cmf mod 16 = 8)%N ->
    (conform = true -> (cmf / 16 <= 7)%N /\ ((256 * cmf + flg) mod 31 = 0)%N /\ flag 5 flg = false) ->
    Optional (flag 5 flg) (fun i j l => Bytes i j l /\ length l = 4) (i + 2) i1 dictid ->
    Deflated i1 i2 data ->
    Bytes i2 j adler -> length adler = 4 ->
    (conform = true -> number true adler = adler32 data) ->
    Zlib i j data.
End Containers.
