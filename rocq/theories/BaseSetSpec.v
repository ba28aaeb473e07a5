(** What the sets of candidate integer types stand for. *)
From Verif Require Import Base BoundsModel NumericModel ValueModel BaseSetModel.
Open Scope nat_scope.

(** The rank of a type in a set of unsigned types (four places), in a set of
    integer types (eight places); [None] when it is not a member. *)
Definition u_rank (s : rset) (w : bitwidth) : option nat :=
  nth (match w with B8 => 0 | B16 => 1 | B32 => 2 | B64 => 3 end) s None.
Definition p_rank (s : rset) (p : mrep) : option nat :=
  nth ((if is_signed p then 4 else 0) +
       match bit_width p with B8 => 0 | B16 => 1 | B32 => 2 | B64 => 3 end) s None.

(** Membership. *)
Definition in_bs (s : baseset) (b : basetype) : Prop :=
  match s with
  | BSingle b' => b = b'
  | BU u => exists w n, b = TU w /\ u_rank u w = Some n
  end.
Definition in_is (s : intset) (p : mrep) : Prop :=
  match s with
  | ISingle q => p = q
  | IZ z => exists n, p_rank z p = Some n
  end.

(** Sets that the API can build: the arrays have their length. *)
Definition bs_ok (s : baseset) : Prop := match s with BSingle _ => True | BU u => length u = 4 end.
Definition is_ok (s : intset) : Prop := match s with ISingle _ => True | IZ z => length z = 8 end.

(** The values an integer type can hold. *)
Definition holds (p : mrep) (z : Z) : Prop :=
  (if is_signed p then - 2 ^ (bw_bits (bit_width p) - 1) <= z < 2 ^ (bw_bits (bit_width p) - 1)
   else 0 <= z < 2 ^ bw_bits (bit_width p))%Z.
