(** Run-length encoding, on a list of bytes. Nothing here comes from the format. *)
From Verif Require Import Base GzipSpec.
Open Scope nat_scope.

(** A run: how often, and which byte *)
Definition run_of : Type := (N * N)%type.
Definition encoded (runs : list run_of) : list N := flat_map (fun r => [fst r; snd r]) runs.
Definition decoded (runs : list run_of) : list N := flat_map (fun r => repeat (snd r) (N.to_nat (fst r))) runs.
(** A text in [i..j]: a byte that says the style (0 is the old one), and the runs *)
Definition RunLength (buf : list N) (i j : nat) (old : bool) (runs : list run_of) : Prop :=
  Bytes buf i j ((if old then 0%N else 1%N) :: encoded runs).
(** An encoder: equal bytes that follow each other, up to 255 of them, are a run. *)
Fixpoint encode (data : list N) : list run_of :=
  match data with
  | [] => []
  | b :: rest =>
    match encode rest with
    | (n, c) :: runs => if N.eqb b c && N.ltb n 255 then ((n + 1)%N, c) :: runs else (1%N, b) :: (n, c) :: runs
    | [] => [(1%N, b)]
    end
  end.
