(** Model of src/bounds.rs: interval arithmetic on [usize] (64 bits). *)
From Verif Require Import Base.
Open Scope N_scope.

(** src/bounds.rs:52-56 [struct Bounds]. The [usize]s are [N]s; the operations
    below are exact on values under [2^64] ([w64]). *)
Record bounds := Bnd { bmin : N; bmax : option N }.

(** src/bounds.rs:11-16 [sig_bits] *)
Definition sig_bits (x : N) : N := if x =? 0 then 0 else N.log2 x + 1.

(** src/bounds.rs:121-126 [new], 196-218 [exact], [at_most], [at_least], [any]. *)
Definition bnew (min max : N) : bounds := Bnd min (Some max).
Definition bexact (n : N) : bounds := Bnd n (Some n).
Definition bat_most (n : N) : bounds := Bnd 0 (Some n).
Definition bat_least (n : N) : bounds := Bnd n None.
Definition bany : bounds := Bnd 0 None.

(** src/bounds.rs:221-226 [as_exact] *)
Definition as_exact (b : bounds) : option N :=
  match bmax b with
  | Some n => if n =? bmin b then Some n else None
  | None => None
  end.

(** src/bounds.rs:229-235 [contains] *)
Definition bcontains (b : bounds) (n : N) : bool :=
  (bmin b <=? n) && match bmax b with Some m => n <=? m | None => true end.

(** src/bounds.rs:100-117 [rem]; [checked_rem(0).unwrap()] panics. *)
Definition brem (lhs rhs : bounds) : outcome bounds :=
  match as_exact rhs with
  | Some y =>
    match as_exact lhs with
    | Some x => if y =? 0 then Panic else Val (bexact (x mod y))
    | None => Val bany
    end
  | None => Val bany
  end.

(** src/bounds.rs:182-193 [significant_bits], [nbits_exact] *)
Definition significant_bits (b : bounds) : bounds :=
  Bnd (sig_bits (bmin b)) (option_map sig_bits (bmax b)).
Definition nbits_exact (b : bounds) : option N := as_exact (significant_bits b).

(** src/bounds.rs:139-178 [bitwise_bounds]; the [expect] on [checked_sub] is a
    [Panic]. *)
Definition bitwise_bounds (b : bounds) : outcome (N * bounds) :=
  match bmax b with
  | None => Val (0, b)
  | Some max =>
    if bmin b =? max then Val (bmin b, bexact 0)
    else match nbits_exact b with
    | None => Val (0, b)
    | Some nbits =>
      let mbits := sig_bits (N.lxor max (bmin b)) in
      if nbits <? mbits then Panic
      else
        let set_bits := nbits - mbits in
        if set_bits =? 0 then Val (0, b)
        else
          let hi_mask := N.shiftl (N.shiftl 1 set_bits - 1) mbits in
          let lo_mask := N.shiftl 1 mbits - 1 in
          Val (N.land hi_mask max,
               bnew (N.land (bmin b) lo_mask) (N.land max lo_mask))
    end
  end.

(** src/bounds.rs:239-247 [union] *)
Definition bunion (a b : bounds) : bounds :=
  Bnd (N.min (bmin a) (bmin b))
      (match bmax a, bmax b with
       | Some m1, Some m2 => Some (N.max m1 m2)
       | _, _ => None
       end).

(** src/bounds.rs:259-270 [clamp]; the [assert!] is a [Panic]. *)
Definition bclamp (b : bounds) (min max : N) : outcome (option bounds) :=
  if max <? min then Panic
  else
    let min' := N.max min (bmin b) in
    let max' := match bmax b with Some m => N.min m max | None => max end in
    Val (if max' <? min' then None else Some (Bnd min' (Some max'))).

(** src/bounds.rs:274-279 [bits_to_bytes] *)
Definition div_ceil8 (n : N) : N := (n + 7) / 8.
Definition bits_to_bytes (b : bounds) : bounds :=
  Bnd (div_ceil8 (bmin b)) (option_map div_ceil8 (bmax b)).

(** [usize] checked operations of the Rust standard library. *)
Definition checked_add (a b : N) : option N := if a + b <? w64 then Some (a + b) else None.
Definition checked_mul (a b : N) : option N := if a * b <? w64 then Some (a * b) else None.
Definition checked_div (a b : N) : option N := if b =? 0 then None else Some (a / b).
(** [checked_shl] fails only for shift amounts of 64 and more; bits shifted out
    are lost. *)
Definition checked_shl (a s : N) : option N :=
  if s <? 64 then Some (N.shiftl a s mod w64) else None.
Definition checked_shr (a s : N) : option N :=
  if s <? 64 then Some (N.shiftr a s) else None.
(** [u32::try_from(usize).ok()] *)
Definition to_u32 (n : N) : option N := if n <? 4294967296 then Some n else None.

Definition unwrap_or_any (o : option bounds) : bounds :=
  match o with Some b => b | None => bany end.

(** src/bounds.rs:314-332 [CheckedAdd], [Add] *)
Definition badd (a b : bounds) : bounds :=
  unwrap_or_any
    match checked_add (bmin a) (bmin b) with
    | None => None
    | Some mn =>
      Some (Bnd mn (match bmax a, bmax b with
                    | Some m1, Some m2 => checked_add m1 m2
                    | _, _ => None end))
    end.

(** src/bounds.rs:334-346 [Sub]; [saturating_sub] is [N.sub]. *)
Definition bsub (a b : bounds) : bounds :=
  Bnd (match bmax b with Some m2 => bmin a - m2 | None => 0 end)
      (option_map (fun m1 => m1 - bmin b) (bmax a)).

(** src/bounds.rs:348-366 [CheckedMul], [Mul] *)
Definition bmul (a b : bounds) : bounds :=
  unwrap_or_any
    match checked_mul (bmin a) (bmin b) with
    | None => None
    | Some mn =>
      Some (Bnd mn (match bmax a, bmax b with
                    | Some m1, Some m2 => checked_mul m1 m2
                    | _, _ => None end))
    end.

(** src/bounds.rs:368-386 [CheckedDiv], [Div] *)
Definition bdiv (a b : bounds) : bounds :=
  unwrap_or_any
    match (match bmax b with Some m2 => checked_div (bmin a) m2 | None => Some 0 end) with
    | None => None
    | Some mn => Some (Bnd mn (option_map (fun m1 => m1 / N.max (bmin b) 1) (bmax a)))
    end.

(** src/bounds.rs:389-401 [checked_shl], 417-423 [Shl] *)
Definition bchecked_shl (a b : bounds) : option bounds :=
  match to_u32 (bmin b) with
  | None => None
  | Some min2 =>
    match checked_shl (bmin a) min2 with
    | None => None
    | Some mn =>
      match bmax a, bmax b with
      | Some m1, Some m2 =>
        match to_u32 m2 with
        | None => None
        | Some max2 => Some (Bnd mn (checked_shl m1 max2))
        end
      | _, _ => Some (Bnd mn None)
      end
    end
  end.
Definition bshl (a b : bounds) : bounds := unwrap_or_any (bchecked_shl a b).

(** src/bounds.rs:403-414 [checked_shr], 425-431 [Shr] *)
Definition bchecked_shr (a b : bounds) : option bounds :=
  match (match bmax b with
         | Some m2 => match to_u32 m2 with Some m => checked_shr (bmin a) m | None => None end
         | None => Some 0
         end) with
  | None => None
  | Some mn =>
    match to_u32 (bmin b) with
    | None => None
    | Some min0 =>
      Some (Bnd mn (match bmax a with Some m1 => checked_shr m1 min0 | None => None end))
    end
  end.
Definition bshr (a b : bounds) : bounds := unwrap_or_any (bchecked_shr a b).

(** src/bounds.rs:485-491 [mask]: [checked_shl(64)] is [None], hence panics from
    [2^63] on. *)
Definition mask (x : N) : outcome N :=
  if x =? 0 then Val 0
  else if N.log2 x + 1 <? 64 then Val (N.shiftl 1 (N.log2 x + 1) - 1) else Panic.

(** src/bounds.rs:481-483 [blend_bits] *)
Definition blend_bits (k1 k2 m1 m2 : N) : N :=
  N.lor (N.lor (N.lor (N.land k1 k2) (N.land m1 m2)) (N.land k1 m2)) (N.land m1 k2).

(** src/bounds.rs:286-295 [best_mask] *)
Definition best_mask (b : bounds) (m : N) : outcome (N * N) :=
  if bcontains b m then Val (m, m)
  else match bmax b with
       | Some n => omap (fun x => (x, m)) (mask n)
       | None => Val (m, m)
       end.

(** src/bounds.rs:433-447 [BitOr] *)
Definition bbitor (a b : bounds) : outcome bounds :=
  obind (bitwise_bounds a) (fun '(k1, la) =>
  obind (bitwise_bounds b) (fun '(k2, lb) =>
  match bmax la, bmax lb with
  | Some m1, Some m2 =>
    obind (mask m1) (fun x1 => obind (mask m2) (fun x2 =>
    Val (Bnd (N.max (bmin a) (bmin b)) (Some (N.lor (N.lor k1 k2) (N.lor x1 x2))))))
  | _, _ => Val (Bnd (N.max (bmin a) (bmin b)) None)
  end)).

(** src/bounds.rs:449-476 [BitAnd] *)
Definition bbitand (a b : bounds) : outcome bounds :=
  obind (bitwise_bounds a) (fun '(k1, la) =>
  obind (bitwise_bounds b) (fun '(k2, lb) =>
  match bmax la, bmax lb with
  | Some m1, Some m2 =>
    omap (fun mx => Bnd (N.land k1 k2) (Some mx))
      match bmin la =? m1, bmin lb =? m2 with
      | true, true => Val (blend_bits k1 k2 m1 m2)
      | true, false => omap (fun '(x2, m) => blend_bits k1 k2 m x2) (best_mask lb m1)
      | false, true => omap (fun '(x1, m) => blend_bits k1 k2 x1 m) (best_mask la m2)
      | false, false => obind (mask m1) (fun x1 => omap (fun x2 => blend_bits k1 k2 x1 x2) (mask m2))
      end
  | _, _ => Val (Bnd (N.land k1 k2) None)
  end)).
