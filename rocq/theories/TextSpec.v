(** UTF-8, as in RFC 3629. *)
From Verif Require Import Base DataModel NumericModel ValueModel FormatModel FormatSpec.
Open Scope nat_scope.

(** Unicode scalar values (RFC 3629, section 3: surrogates are excluded). *)
Definition scalar (c : N) : bool := N.ltb c 55296 || N.leb 57344 c && N.ltb c 1114112.
(** RFC 3629, section 3. *)
Definition encode (c : N) : list N :=
  (if N.ltb c 128 then [c]
   else if N.ltb c 2048 then [192 + c / 64; 128 + c mod 64]
   else if N.ltb c 65536 then [224 + c / 4096; 128 + c / 64 mod 64; 128 + c mod 64]
   else [240 + c / 262144; 128 + c / 4096 mod 64; 128 + c / 64 mod 64; 128 + c mod 64])%N.
Definition encode_all (cs : list N) : list N := flat_map encode cs.
(** The character held by a value, and the string: a sequence of those. *)
Definition is_char (v : value) (c : N) : Prop := coerce_mapped v = VChar c.
Definition is_text (v : value) (cs : list N) : Prop := exists vs, v = VSeq (Strict vs) /\ Forall2 is_char vs cs.
(** The bytes of [bs] are those of [buf] from [i] on. *)
Definition at_ (buf : list N) (i : nat) (bs : list N) : Prop := exists before after, buf = before ++ bs ++ after /\ length before = i.
