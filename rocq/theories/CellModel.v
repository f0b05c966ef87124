(** CellModel.v - what safe client code can do to an object besides the methods of the crate: change values
    with interior mutability through shared references, and swap whole objects of its own types. *)
From Verif Require Export Program.

(** The address and type of the leaf a shared reference leads to: Deref of an Array (array.rs:162-168), FixedLen.0,
    inner (newtype.rs:225), refs() of a tuple (tuple.rs:132-138) and of a struct
    (varlen_macro/src/lib.rs:443-452 with ref_field snippets 811, 847, 911, 996). Unlike muts() (see [locate] in Access.v),
    refs() leads to the layout controllers too (847). The fields of the struct itself are
    as visible as the user's (331-336), so &s.len is the same reference. *)
Fixpoint locate_ref (t : vty) (a : N) (p : path) {struct t} : M world (N * fty) :=
  match t, p with
  | TFixed f, PHere => ret (a, f)
  | TArray f k, PIdx i =>
      l <- calc_layout (TArray f k) a ;;
      match l with LyArr off n _ => elem_mut f a off n i | _ => undef UType end
  | TNew t, PInner p => locate_ref t a p
  | TRec kd hs ha fs, PFld j p =>
      l <- calc_layout (TRec kd hs ha fs) a ;;
      match l with LyRec _ es => locate_ref_fld fs a es j p | _ => undef UType end
  | _, _ => undef UType
  end
with locate_ref_fld (fs : flds) (a : N) (es : list (N * lay)) (j : nat) (p : path) {struct fs} : M world (N * fty) :=
  match fs, j, es with
  | FNormal off f r, O, _ | FLength off f r, O, _ => match p with PHere => ret (wrapping_add a off, f) | _ => undef UType end
  | FNormal _ _ r, S j, es | FLength _ _ r, S j, es => locate_ref_fld r a es j p
  | FVar t r, O, (off, _) :: _ =>
      check_ref (wrapping_add a off) (head_size t) (head_align t) ;;;
      locate_ref t (wrapping_add a off) p
  | FArr f _ r, O, (off, LyLen n) :: _ =>
      match p with PIdx i => elem_mut f a off n i | _ => undef UType end
  | FVar _ r, S j, _ :: es' | FArr _ _ r, S j, _ :: es' => locate_ref_fld r a es' j p
  | _, _, _ => undef UType
  end.
(** Cell::set on a leaf (core::cell: replace, then the old value is dropped). Nothing in the crate forbids a type
    with interior mutability, in particular not for #[controls_layout] fields
    (varlen_macro/src/lib.rs:838-856 puts no bound on the type). *)
Definition cell_set (t : vty) (a : N) (p : path) (new : list cell) : M world unit :=
  q <- locate_ref t a p ;;
  old <- load (fst q) (f_size (snd q)) (f_align (snd q)) ;;
  store (fst q) (f_align (snd q)) new ;;; drop_value (snd q) old.
(** mem::swap of two whole objects of type [t] through &mut T: size_of::<T>() bytes. Safe code gets from Pin<&mut T>
    to &mut T if T is Unpin. A type made by define_varlen or define_varlen_newtype belongs to the
    crate of the user, who may write [impl Unpin for T {}], without unsafe, whatever its fields are
    (neither varlen_macro/src/lib.rs:264-511 nor newtype.rs:183-240 contains an impl of Unpin, which would make another one an error). *)
Definition swap_objects (t : vty) (a a' : N) : M world unit := mem_swap a a' (head_size t) (head_align t).

(** Cell::set on a leaf of an object a program can reach (see [OAssign] in Program.v for the counterpart through
    muts()). *)
Definition exec_cell (pl : place) (q : path) (new : list cell) (c : config) : res config out :=
  call (r <- resolve (snd c) pl ;; cell_set (fst r) (snd r) q new) (fun _ => (OutUnit, snd c)) (snd c) (fst c).
