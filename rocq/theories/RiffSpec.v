(** RIFF files (Multimedia Programming Interface and Data Specifications 1.0, IBM and
    Microsoft 1991, "Resource Interchange File Format"), on a list of bytes. Nothing
    here comes from the format.
    [full = true] is the specification, where the contents of a chunk take up all of
    its length; [full = false] lets them end before. *)
From Verif Require Import Base RecordSpec GzipSpec.
Open Scope nat_scope.

(** A chunk of a file: its four-character code and its data *)
Definition chunk_of : Type := (list N * list N)%type.
(** What a file says: the form type, and the chunks *)
Record riff_file := RiffFile { r_form : list N; r_chunks : list chunk_of }.

Section Riff.
Context (full : bool).
(** A chunk in [i..j]: its code, the number of bytes of its contents (four bytes,
    least significant first), its contents, and a zero byte if that number is odd,
    which it does not count. [Body before k l a] are the contents [a] in [k..l], read
    from the bytes up to the end of the contents. *)
Definition Chunk {A} (Body : list N -> nat -> nat -> A -> Prop) (buf : list N) (i j : nat) (code : list N) (a : A) : Prop :=
  exists size k, Bytes buf i (i + 4) code /\ Bytes buf (i + 4) (i + 8) size /\
    let stop := i + 8 + N.to_nat (little size) in
    stop <= length buf /\ Body (firstn stop buf) (i + 8) k a /\ (full = true -> k = stop) /\
    (if N.eqb (little size mod 2) 1 then Bytes buf stop j [0%N] else j = stop).
(** The chunks in a file are not looked into. *)
Inductive Chunks (buf : list N) : nat -> nat -> list chunk_of -> Prop :=
| ChunksNil i : Chunks buf i i []
| ChunksCons i j k code data rest : Chunk Bytes buf i j code data -> Chunks buf j k rest -> Chunks buf i k ((code, data) :: rest).
(** The contents of the file: the form type, and the chunks *)
Definition Form (buf : list N) (i j : nat) (file : riff_file) : Prop :=
  Bytes buf i (i + 4) (r_form file) /\ Chunks buf (i + 4) j (r_chunks file).
(** A file is one chunk, with the code "RIFF". *)
Definition Riff (buf : list N) (i j : nat) (file : riff_file) : Prop := Chunk Form buf i j [82; 73; 70; 70]%N file.
End Riff.
