(** Tagged numbers on a list of bytes. Nothing here comes from the format. *)
From Coq Require Import String.
From Verif Require Import Base NumericModel RecordSpec GzipSpec.
Open Scope nat_scope.

(** A number as it is written: signed or not, its width, and its bytes, the most
    significant first *)
Record written := Written { w_signed : bool; w_width : bitwidth; w_bytes : list N }.
Definition size_of (w : bitwidth) : nat := match w with B8 => 1 | B16 => 2 | B32 => 4 | B64 => 8 end.
Definition tag_of (x : written) : N :=
  ((if w_signed x then 4 else 0) + match w_width x with B8 => 0 | B16 => 1 | B32 => 2 | B64 => 3 end)%N.
(** The name of its kind *)
Definition name_of (x : written) : string :=
  match w_signed x, w_width x with
  | false, B8 => "U8Value" | false, B16 => "U16BEValue" | false, B32 => "U32BEValue" | false, B64 => "U64BEValue"
  | true, B8 => "I8Value" | true, B16 => "I16BEValue" | true, B32 => "I32BEValue" | true, B64 => "I64BEValue"
  end%string.
(** The number it is: signed numbers are in two's complement. *)
Definition number_of (x : written) : Z :=
  if w_signed x then signed (w_width x) (number true (w_bytes x)) else Z.of_N (number true (w_bytes x)).
Definition fits (x : written) : Prop := List.length (w_bytes x) = size_of (w_width x).
(** A file in [i..j]: the bytes "NUMS", and numbers, each after its tag *)
Definition Numbers (buf : list N) (i j : nat) (xs : list written) : Prop :=
  Forall fits xs /\ Bytes buf i j ([78; 85; 77; 83]%N ++ flat_map (fun x => tag_of x :: w_bytes x) xs).
