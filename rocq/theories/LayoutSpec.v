(** What is expected of the analysis of declared types, without reference to how it
    is carried out. *)
From Coq Require Import String.
From Verif Require Import Base LayoutModel.
Open Scope nat_scope.

(** The types of the parts of a declared type, and of a variant of one *)
Definition contents (v : rvariant) : list rtype :=
  match v with XUnit => [] | XTuple ts => ts end.
Definition parts (d : rdef) : list rtype :=
  match d with
  | RStruct fields => map snd fields
  | REnum vs => flat_map contents vs
  end.

Section Declared.
  Variable defs : list rdef.

  (** A type a value can have: its parts, and their parts, come to an end, and are types
      of values: not results, slices, external names or mutable references. What is in
      a vector or behind a reference is not part of the value. *)
  Inductive structural : rtype -> Prop :=
  | st_prim p : structural (YPrim p)
  | st_signed m : structural (YSigned m)
  | st_vec t : structural (YVec t)
  | st_option t : structural t -> structural (YOption t)
  | st_borrow t : structural (YBorrow false t)
  | st_phantom t : structural (YPhantom t)
  | st_local ix d :
      nth_error defs ix = Some d -> structurals (parts d) -> structural (YLocal ix)
  | st_tuple ts : structurals ts -> structural (YTuple ts)
  | st_array : structural YReadArray
  | st_view : structural YView
  with structurals : list rtype -> Prop :=
  | sts_nil : structurals []
  | sts_cons t ts : structural t -> structurals ts -> structurals (t :: ts).

  (** *** Copy *)

  (** Rust's rule: a type is [Copy] if it is a scalar, a shared reference or a marker, or
      if everything it is made of is; a vector never is. *)
  Inductive copyable : rtype -> Prop :=
  | cp_prim p : copyable (YPrim p)
  | cp_signed m : copyable (YSigned m)
  | cp_option t : copyable t -> copyable (YOption t)
  | cp_result t e : copyable t -> copyable e -> copyable (YResult t e)
  | cp_borrow t : copyable (YBorrow false t)
  | cp_phantom t : copyable (YPhantom t)
  | cp_local ix d :
      nth_error defs ix = Some d -> copyables (parts d) -> copyable (YLocal ix)
  | cp_tuple ts : copyables ts -> copyable (YTuple ts)
  | cp_array : copyable YReadArray
  | cp_view : copyable YView
  with copyables : list rtype -> Prop :=
  | cps_nil : copyables []
  | cps_cons t ts : copyable t -> copyables ts -> copyables (t :: ts).

  (** *** Sizes *)

  (** Bytes of a machine integer *)
  Definition int_bytes (m : mint) : N :=
    match m with M8 => 1 | M16 => 2 | M32 => 4 | M64 => 8 end%N.
  (** Size and alignment of a scalar *)
  Definition scalar (p : primty) : N * N :=
    match p with
    | QUnit => (0, 1)
    | QBool => (1, 1)
    | QChar => (4, 4)
    | QUnsigned m => (int_bytes m, int_bytes m)
    | QUsize => (8, 8)
    end%N.

  (** A list of parts, each of a size and an alignment, laid out in [total] bytes at
      [align]: each part is at a multiple of its alignment, no two overlap, all are inside,
      and the whole can be repeated at multiples of its size. A slot is an offset with the
      part put there. *)
  Definition apart (x y : N * (N * N)) : Prop :=
    (fst x + fst (snd x) <= fst y \/ fst y + fst (snd y) <= fst x)%N.
  Definition laid_out (slots : list (N * (N * N))) (total align : N) : Prop :=
    (forall o s a, In (o, (s, a)) slots ->
       N.divide a o /\ (o + s <= total)%N /\ N.divide a align) /\
    ForallOrdPairs apart slots /\
    N.divide align total.
  (** The least number of bytes in which parts can be laid out *)
  Definition least_layout (ps : list (N * N)) (align total : N) : Prop :=
    (exists slots, map snd slots = ps /\ laid_out slots total align) /\
    (forall slots total', map snd slots = ps -> laid_out slots total' align ->
       (total <= total')%N).

  (** The least multiple of [a] above [x] *)
  Definition next_multiple (a x y : N) : Prop :=
    N.divide a y /\ (x < y)%N /\ forall z, N.divide a z -> (x < z)%N -> (y <= z)%N.

  (** The largest of a list and [d] *)
  Definition largest (d : N) (l : list N) (m : N) : Prop :=
    In m (d :: l) /\ forall x, In x (d :: l) -> (x <= m)%N.

  (** The alignment of a type: of a composite, the largest of its parts' *)
  Inductive aligned : rtype -> N -> Prop :=
  | al_prim p : aligned (YPrim p) (snd (scalar p))
  | al_signed m : aligned (YSigned m) (int_bytes m)
  | al_vec t : aligned (YVec t) 8
  | al_option t a : aligned t a -> aligned (YOption t) a
  | al_borrow b t : aligned (YBorrow b t) 8
  | al_phantom t : aligned (YPhantom t) 1
  | al_local ix d l a :
      nth_error defs ix = Some d -> aligneds (parts d) l -> largest 1 l a ->
      aligned (YLocal ix) a
  | al_tuple ts l a : aligneds ts l -> largest 1 l a -> aligned (YTuple ts) a
  | al_array : aligned YReadArray 8
  | al_view : aligned YView 8
  with aligneds : list rtype -> list N -> Prop :=
  | als_nil : aligneds [] []
  | als_cons t ts a l : aligned t a -> aligneds ts l -> aligneds (t :: ts) (a :: l).

  (** The niches counted for a type: the bit patterns that are not values of it, that an
      [Option] around it may use. *)
  Definition product (l : list N) : N := fold_right N.mul 1%N l.
  Definition sum (l : list N) : N := fold_right N.add 0%N l.
  Definition scalar_niches (p : primty) : N :=
    match p with
    | QBool => 256 - 2
    | QChar => 2 ^ 32 - 69632
    | QUnit | QUnsigned _ | QUsize => 0
    end%N.
  Definition joint_niches (l : list N) : N :=
    (N.min (product (map N.succ l)) usize_max - 1)%N.
  Inductive spare : rtype -> N -> Prop :=
  | sp_prim p : spare (YPrim p) (scalar_niches p)
  | sp_signed m : spare (YSigned m) 0
  | sp_vec t : spare (YVec t) usize_max
  | sp_used t n : spare t (N.succ n) -> spare (YOption t) n
  | sp_tag t a : spare t 0 -> aligned t a -> spare (YOption t) (2 ^ (8 * a) - 1)
  | sp_borrow b t : spare (YBorrow b t) 1
  | sp_phantom t : spare (YPhantom t) 0
  | sp_struct ix fields l :
      nth_error defs ix = Some (RStruct fields) -> spares (map snd fields) l ->
      spare (YLocal ix) (joint_niches l)
  | sp_enum ix vs l :
      nth_error defs ix = Some (REnum vs) -> variant_spares vs l ->
      spare (YLocal ix) (N.min (sum l) usize_max)
  | sp_tuple ts l : spares ts l -> spare (YTuple ts) (joint_niches l)
  | sp_verbatim : spare YVerbatim 0
  | sp_array : spare YReadArray 1
  | sp_view : spare YView 1
  with spares : list rtype -> list N -> Prop :=
  | sps_nil : spares [] []
  | sps_cons t ts n l : spare t n -> spares ts l -> spares (t :: ts) (n :: l)
  with variant_spares : list rvariant -> list N -> Prop :=
  | vsp_nil : variant_spares [] []
  | vsp_cons v vs l ns :
      spares (contents v) l -> variant_spares vs ns ->
      variant_spares (v :: vs) (joint_niches l :: ns).

  (** The size of a type: of a tuple or a struct, the least its parts can be laid out in;
      of an enum, the least that leaves a byte for the tag beyond its largest variant; of an
      [Option], that of its contents if there is a niche, and else one alignment more. *)
  Inductive sized : rtype -> N -> Prop :=
  | sz_prim p : sized (YPrim p) (fst (scalar p))
  | sz_signed m : sized (YSigned m) (int_bytes m)
  | sz_vec t : sized (YVec t) 24
  | sz_niche t n s : spare t (N.succ n) -> sized t s -> sized (YOption t) s
  | sz_tag t a s : spare t 0 -> sized t s -> aligned t a -> sized (YOption t) (s + a)
  | sz_borrow b t : sized (YBorrow b t) 8
  | sz_phantom t : sized (YPhantom t) 0
  | sz_struct ix fields ps a s :
      nth_error defs ix = Some (RStruct fields) -> sizeds (map snd fields) ps ->
      aligned (YLocal ix) a -> least_layout ps a s -> sized (YLocal ix) s
  | sz_enum ix vs l m a s :
      nth_error defs ix = Some (REnum vs) -> variant_sizeds vs l ->
      largest 0 l m -> aligned (YLocal ix) a -> next_multiple a m s ->
      sized (YLocal ix) s
  | sz_tuple ts ps a s :
      sizeds ts ps -> aligned (YTuple ts) a -> least_layout ps a s -> sized (YTuple ts) s
  | sz_array : sized YReadArray 40
  | sz_view : sized YView 24
  with sizeds : list rtype -> list (N * N) -> Prop :=
  | szs_nil : sizeds [] []
  | szs_cons t ts s a l :
      sized t s -> aligned t a -> sizeds ts l -> sizeds (t :: ts) ((s, a) :: l)
  with variant_sizeds : list rvariant -> list N -> Prop :=
  | vsz_nil : variant_sizeds [] []
  | vsz_cons v vs ps a s l :
      sizeds (contents v) ps -> aligned (YTuple (contents v)) a ->
      least_layout ps a s -> variant_sizeds vs l -> variant_sizeds (v :: vs) (s :: l).

  (** *** Read widths *)

  (** The numbers of bytes a value of a type may be read from, when it is read leaf by leaf:
      an integer from as many as it has, a composite from those of its parts in turn, an enum
      from those of one of its variants. Nothing is known of the other types. *)
  Inductive takes : rtype -> N -> Prop :=
  | tk_unit : takes (YPrim QUnit) 0
  | tk_unsigned m : takes (YPrim (QUnsigned m)) (int_bytes m)
  | tk_signed m : takes (YSigned m) (int_bytes m)
  | tk_bool n : takes (YPrim QBool) n
  | tk_char n : takes (YPrim QChar) n
  | tk_usize n : takes (YPrim QUsize) n
  | tk_vec t n : takes (YVec t) n
  | tk_slice t n : takes (YRawSlice t) n
  | tk_option t n : takes (YOption t) n
  | tk_borrow b t n : takes (YBorrow b t) n
  | tk_phantom t : takes (YPhantom t) 0
  | tk_struct ix fields n :
      nth_error defs ix = Some (RStruct fields) -> all_take (map snd fields) n ->
      takes (YLocal ix) n
  | tk_enum ix vs v n :
      nth_error defs ix = Some (REnum vs) -> In v vs -> all_take (contents v) n ->
      takes (YLocal ix) n
  | tk_tuple ts n : all_take ts n -> takes (YTuple ts) n
  | tk_array n : takes YReadArray n
  | tk_view n : takes YView n
  with all_take : list rtype -> N -> Prop :=
  | tks_nil : all_take [] 0
  | tks_cons t ts m n : takes t m -> all_take ts n -> all_take (t :: ts) (m + n).

  (** *** Places *)

  (** [behind t u]: [u] is [t], or what [t] refers to through any number of references *)
  Inductive behind : rtype -> rtype -> Prop :=
  | bh_here t : behind t t
  | bh_ref b t u : behind t u -> behind (YBorrow b t) u.
  (** The type of what is at a place *)
  Inductive holds : lens -> rtype -> Prop :=
  | hd_ground t : holds (LGround t) t
  | hd_elem l t u : holds l t -> behind t (YVec u) -> holds (LElem l) u
  | hd_slice l t u : holds l t -> behind t (YRawSlice u) -> holds (LElem l) u
  | hd_field l t ix fields name u before after :
      holds l t -> behind t (YLocal ix) -> nth_error defs ix = Some (RStruct fields) ->
      fields = before ++ (name, u) :: after -> ~ In name (map fst before) ->
      holds (LField name l) u
  | hd_pos l t us ix u :
      holds l t -> behind t (YTuple us) -> nth_error us ix = Some u ->
      holds (LPos ix l) u
  | hd_param l t u : holds l t -> behind t (YOption u) -> holds (LParam l) u.

  (** A type in which nothing is a result, a slice or a mutable reference, down to the
      declared types; and one in which nothing is a reference at all *)
  Fixpoint shared (t : rtype) : bool :=
    match t with
    | YRawSlice _ | YResult _ _ => false
    | YOption t => shared t
    | YBorrow b t => negb b && shared t
    | YTuple ts => forallb shared ts
    | _ => true
    end.
  Fixpoint owned_type (t : rtype) : bool :=
    match t with
    | YRawSlice _ | YResult _ _ | YBorrow _ _ => false
    | YOption t => owned_type t
    | YTuple ts => forallb owned_type ts
    | _ => true
    end.
End Declared.

(** The tables that arise: from the empty one, by questions *)
Definition reachable (defs : list rdef) (c : cache) : Prop :=
  exists fuel qs l, answers fuel defs qs fresh = Ans l c.
