(** Types.v - the variable-length types that the crate can build, as data. *)
From Verif Require Export Machine.

(** A fixed-size Rust type [T] used as a leaf: size_of, align_of, needs_drop, and its [Clone]
    implementation on the bytes of a value ([None]: [clone] panics). *)
Record fty := mkF {
  f_size : N; f_align : N; f_drop : bool;
  f_clone : list cell -> option (list cell) }.

(** The length types of varlen/src/array.rs:392-448 (trait ArrayLen, sealed). *)
Inductive lenk := LU8 | LU16 | LU32 | LU64 | LUsize.
(** size_of (= align_of on the modelled 64-bit target) of the length type. *)
Definition len_size (k : lenk) : N :=
  match k with LU8 => 1 | LU16 => 2 | LU32 => 4 | LU64 | LUsize => 8 end.
(** number of values of the length type *)
Definition len_lim (k : lenk) : N := 256 ^ len_size k.

(** Tuples are generated by a macro_rules macro (varlen/src/tuple.rs:72-241), structs by the
    procedural macro (varlen_macro/src/lib.rs:169-511); both chain the same helpers over their
    fields, and the places where the two expansions differ branch on this tag. *)
Inductive reckind := KTuple | KStruct.

(** Variable-length types.
    - [TFixed f]: FixedLen<T> (varlen/src/lib.rs:685)
    - [TArray f k]: Array<T, Len> (varlen/src/array.rs:101)
    - [TNew t]: a define_varlen_newtype wrapper (varlen/src/newtype.rs:161-245); Str<Len> is
      [TNew (TArray u8 Len)] (varlen/src/str.rs:38-85)
    - [TRec KTuple 0 1 fs]: TupN<...> (varlen/src/tuple.rs:72-241)
    - [TRec KStruct hs ha fs]: a define_varlen struct whose header (the Rust struct) has size [hs]
      and alignment [ha].
    Fields, in declaration order:
    - [FNormal off f r]: an ordinary field of type f at header offset off (chosen by rustc)
    - [FLength off f r]: a #[controls_layout] field
    - [FVar t r]: a #[varlen] field, or a component of a tuple
    - [FArr f lf r]: a #[varlen_array] field with element type f and length expression lf, a
      function of the values of all #[controls_layout] fields (in declaration order); a result that
      is no usize stands for a length expression that panics. *)
Inductive vty :=
| TFixed (f : fty)
| TArray (f : fty) (k : lenk)
| TNew (t : vty)
| TRec (kd : reckind) (hs ha : N) (fs : flds)
with flds :=
| FNil
| FNormal (off : N) (f : fty) (r : flds)
| FLength (off : N) (f : fty) (r : flds)
| FVar (t : vty) (r : flds)
| FArr (f : fty) (lf : list (list cell) -> N) (r : flds).

Scheme vty_mut := Induction for vty Sort Prop
with flds_mut := Induction for flds Sort Prop.
Combined Scheme vty_flds_ind from vty_mut, flds_mut.

(** size_of::<T>() and align_of::<T>() of the Rust type T (its header). *)
Fixpoint head_size (t : vty) : N :=
  match t with
  | TFixed f => f_size f
  | TArray _ k => len_size k
  | TNew t => head_size t
  | TRec _ hs _ _ => hs
  end.
Fixpoint head_align (t : vty) : N :=
  match t with
  | TFixed f => f_align f
  | TArray _ k => len_size k
  | TNew t => head_align t
  | TRec _ _ ha _ => ha
  end.

(** macro_support.rs:168-177 [array_max]: the largest entry, 0 for the empty array. *)
Definition array_max (l : list N) : N :=
  fold_left (fun r v => if v <? r then r else v) l 0.

(** VarLen::ALIGN. lib.rs:729 (FixedLen), array.rs:146-149 (Array), newtype.rs:198 (newtype),
    tuple.rs:156-158 (tuple), varlen_macro/src/lib.rs:367-374 (struct). *)
Fixpoint valign (t : vty) : N :=
  match t with
  | TFixed f => f_align f
  | TArray f k => array_max [len_size k; f_align f]
  | TNew t => valign t
  | TRec KTuple _ _ fs => array_max (falign fs)
  | TRec KStruct _ ha fs => array_max (ha :: falign fs)
  end
(** the alignments of the tail fields (varlen_macro/src/lib.rs:890,975 align_of_field) *)
with falign (fs : flds) : list N :=
  match fs with
  | FNil => []
  | FNormal _ _ r | FLength _ _ r => falign r
  | FVar t r => valign t :: falign r
  | FArr f _ r => f_align f :: falign r
  end.

(** VarLen::NEEDS_VDROP. lib.rs:731, array.rs:150, newtype.rs:199, tuple.rs:159-161,
    varlen_macro/src/lib.rs:376-380, 819, 855, 920, 1005. *)
Fixpoint needs_vdrop (t : vty) : bool :=
  match t with
  | TFixed _ => true
  | TArray f _ => f_drop f
  | TNew t => needs_vdrop t
  | TRec _ _ _ fs => fneeds fs
  end
with fneeds (fs : flds) : bool :=
  match fs with
  | FNil => false
  | FNormal _ f r | FLength _ f r => f_drop f || fneeds r
  | FVar t r => needs_vdrop t || fneeds r
  | FArr f _ r => f_drop f || fneeds r
  end.

(** The #[controls_layout] fields (header offset and type), in declaration order
    (varlen_macro/src/lib.rs:825-859 [push_length]). *)
Fixpoint ctrl_fields (fs : flds) : list (N * fty) :=
  match fs with
  | FNil => []
  | FLength off f r => (off, f) :: ctrl_fields r
  | FNormal _ _ r | FVar _ r | FArr _ _ r => ctrl_fields r
  end.

(** Layout objects (the associated type VarLen::Layout): FixedLenLayout (lib.rs:697-711), ArrayLayout
    (array.rs:118-123), the tuple Layout (tuple.rs:106-112: size and, per field, offset and nested
    layout), VarLenLayout (varlen_macro/src/lib.rs:273-279). For a #[varlen_array] field the nested
    entry is just its length ([LyLen]). A newtype uses the layout type of the inner type. *)
Inductive lay :=
| LyFix (size : N)
| LyArr (off n size : N)
| LyRec (size : N) (es : list (N * lay))
| LyLen (n : N).
(** Layout::size() *)
Definition lay_size (l : lay) : N :=
  match l with LyFix s => s | LyArr _ _ s => s | LyRec s _ => s | LyLen n => n end.

(** What a user sees of an object through its accessors: leaf bytes, array elements, fields. *)
Inductive vval :=
| VFix (bs : list cell)
| VArr (xs : list (list cell))
| VNew (v : vval)
| VRec (vs : list vval).
