(** Access.v - reading and mutating objects through their accessors, vclone,
    try_set_layout_controllers, and the array constructors. *)
From Verif Require Export Init.

(** macro_support.rs:62-67 [ref_array] followed by reading all elements. *)
Definition read_array (f : fty) (a off n : N) : M world (list (list cell)) :=
  let p := wrapping_add a off in
  check_ref p (n * f_size f) (f_align f) ;;;
  mapM (fun i => load (p + i * f_size f) (f_size f) (f_align f)) (upto n).

(** Reading the whole object through its accessors: FixedLen.0, Array::deref (array.rs:162-168),
    inner() (newtype.rs:225), refs() of a tuple (tuple.rs:132-138) and of a struct
    (varlen_macro/src/lib.rs:443-452, ref_field snippets 811, 847, 911, 996); [ref_field] is
    macro_support.rs:162-164. *)
Fixpoint view (t : vty) (a : N) {struct t} : M world vval :=
  match t with
  | TFixed f => bs <- load a (f_size f) (f_align f) ;; ret (VFix bs)
  | TArray f k =>
      l <- calc_layout (TArray f k) a ;;
      match l with
      | LyArr off n _ => xs <- read_array f a off n ;; ret (VArr xs)
      | _ => undef UType
      end
  | TNew t => v <- view t a ;; ret (VNew v)
  | TRec kd hs ha fs =>
      l <- calc_layout (TRec kd hs ha fs) a ;;
      match l with
      | LyRec _ es => vs <- view_flds fs a es ;; ret (VRec vs)
      | _ => undef UType
      end
  end
with view_flds (fs : flds) (a : N) (es : list (N * lay)) {struct fs} : M world (list vval) :=
  match fs, es with
  | FNil, _ => ret []
  | FNormal off f r, es | FLength off f r, es =>
      bs <- load (wrapping_add a off) (f_size f) (f_align f) ;;
      vs <- view_flds r a es ;; ret (VFix bs :: vs)
  | FVar t r, (off, _) :: es' =>
      check_ref (wrapping_add a off) (head_size t) (head_align t) ;;;
      v <- view t (wrapping_add a off) ;;
      vs <- view_flds r a es' ;; ret (v :: vs)
  | FArr f _ r, (off, LyLen n) :: es' =>
      xs <- read_array f a off n ;;
      vs <- view_flds r a es' ;; ret (VArr xs :: vs)
  | _, _ => undef UType
  end.

(** How a user reaches one mutable leaf: [PHere] the value of a FixedLen or of an ordinary struct
    field; [PIdx i] element i of an array; [PInner] through a newtype; [PFld j] through the j-th
    field. *)
Inductive path := PHere | PIdx (i : N) | PInner (p : path) | PFld (j : nat) (p : path).

(** Element i of a mutable slice (macro_support.rs:70-72 [mut_array]); indexing panics when out of
    range. *)
Definition elem_mut (f : fty) (a off n i : N) : M world (N * fty) :=
  let p := wrapping_add a off in
  check_ref p (n * f_size f) (f_align f) ;;;
  if i <? n then ret (p + i * f_size f, f) else panic.

(** The address and type of the leaf reached through mut_slice (array.rs:232-242), inner_mut
    (newtype.rs:230), muts() of a tuple (tuple.rs:141-151) and of a struct
    (varlen_macro/src/lib.rs:429-441, mut_field snippets 814, 914, 999). A #[controls_layout] field
    is exposed by Muts as a shared reference only (850: mut_ty is &'a ty), so it is not a mutable
    leaf. *)
Fixpoint locate (t : vty) (a : N) (p : path) {struct t} : M world (N * fty) :=
  match t, p with
  | TFixed f, PHere => ret (a, f)
  | TArray f k, PIdx i =>
      l <- calc_layout (TArray f k) a ;;
      match l with LyArr off n _ => elem_mut f a off n i | _ => undef UType end
  | TNew t, PInner p => locate t a p
  | TRec kd hs ha fs, PFld j p =>
      l <- calc_layout (TRec kd hs ha fs) a ;;
      match l with LyRec _ es => locate_fld fs a es j p | _ => undef UType end
  | _, _ => undef UType
  end
with locate_fld (fs : flds) (a : N) (es : list (N * lay)) (j : nat) (p : path) {struct fs}
    : M world (N * fty) :=
  match fs, j, es with
  | FNormal off f r, O, _ => match p with PHere => ret (wrapping_add a off, f) | _ => undef UType end
  | FNormal _ _ r, S j, es | FLength _ _ r, S j, es => locate_fld r a es j p
  | FVar t r, O, (off, _) :: _ =>
      check_ref (wrapping_add a off) (head_size t) (head_align t) ;;;
      locate t (wrapping_add a off) p
  | FArr f _ r, O, (off, LyLen n) :: _ =>
      match p with PIdx i => elem_mut f a off n i | _ => undef UType end
  | FVar _ r, S j, _ :: es' | FArr _ _ r, S j, _ :: es' => locate_fld r a es' j p
  | _, _, _ => undef UType
  end.

(** A slice in an object: element type, address of element 0, number of elements. [None]: the elements
    of an Array (Deref, array.rs:162-168); [Some j]: refs().x for the #[varlen_array] field number j of
    a struct (varlen_macro/src/lib.rs:443-452, ref_field snippet 996). [ref_array] is
    macro_support.rs:62-67. *)
Definition ref_slice (f : fty) (a off n : N) : M world (fty * N * N) :=
  let p := wrapping_add a off in
  check_ref p (n * f_size f) (f_align f) ;;; ret (f, p, n).
Fixpoint field_slice (fs : flds) (a : N) (es : list (N * lay)) (j : nat) : M world (fty * N * N) :=
  match fs, j, es with
  | FArr f _ _, O, (off, LyLen n) :: _ => ref_slice f a off n
  | FNormal _ _ r, S j, es | FLength _ _ r, S j, es => field_slice r a es j
  | FVar _ r, S j, _ :: es' | FArr _ _ r, S j, _ :: es' => field_slice r a es' j
  | _, _, _ => undef UType
  end.
Definition array_slice (t : vty) (a : N) (j : option nat) : M world (fty * N * N) :=
  l <- calc_layout t a ;;
  match t, j, l with
  | TArray f _, None, LyArr off n _ => ref_slice f a off n
  | TRec _ _ _ fs, Some j, LyRec _ es => field_slice fs a es j
  | _, _, _ => undef UType
  end.
(** [&slice[lo..lo+k]]: a bounds check of the standard library. *)
Definition sub_slice (s : fty * N * N) (lo k : N) : M world (N * N) :=
  let '(f, p, n) := s in
  if lo + k <=? n then ret (p + lo * f_size f, k) else panic.

(** [*leaf = new]: the old value is dropped, the new one written. *)
Definition assign (t : vty) (a : N) (p : path) (new : list cell) : M world unit :=
  q <- locate t a p ;;
  drop_leaf (snd q) (fst q) ;;; store (fst q) (f_align (snd q)) new.

(** VClone::vclone(&self): lib.rs:754 (FixedLen), array.rs:316 (Array), str.rs:179 (Str, a
    newtype), tuple.rs:224 (tuple). define_varlen generates no VClone. The initializer holds references
    to (parts of) the source; nothing is read from them before it is used. The ghost components are
    arbitrary. *)
Fixpoint vclone (t : vty) (a : N) {struct t} : M world init :=
  match t with
  | TFixed f => check_ref a (f_size f) (f_align f) ;;; ret (IFixedCloneAt a [])
  | TArray f k =>
      n <- load_len k a ;;
      l <- calc_layout (TArray f k) a ;;
      match l with
      | LyArr off n' _ =>
          let p := wrapping_add a off in
          check_ref p (n' * f_size f) (f_align f) ;;; ret (ISized n (ACloneAt p n' []))
      | _ => undef UType
      end
  | TNew t => i <- vclone t a ;; ret (INew i)
  | TRec KTuple hs ha fs =>
      l <- calc_layout (TRec KTuple hs ha fs) a ;;
      match l with
      | LyRec _ es => is_ <- vclone_flds fs a es ;; ret (IRec is_)
      | _ => undef UType
      end
  | TRec KStruct _ _ _ => undef UType
  end
with vclone_flds (fs : flds) (a : N) (es : list (N * lay)) {struct fs} : M world (list init) :=
  match fs, es with
  | FNil, _ => ret []
  | FVar t r, (off, _) :: es' =>
      check_ref (wrapping_add a off) (head_size t) (head_align t) ;;;
      i <- vclone t (wrapping_add a off) ;;
      is_ <- vclone_flds r a es' ;; ret (i :: is_)
  | _, _ => undef UType
  end.

(** VCopy::vcopy(&self), lib.rs:509: a VCopier holding the reference. *)
Definition vcopy (a : N) (ghost : vval) : init := ICopy a ghost.

(** ** try_set_layout_controllers (varlen_macro/src/lib.rs:454-482) *)

(** The length functions of a struct ([len_ident], varlen_macro/src/lib.rs:291-297). *)
Fixpoint len_fns (fs : flds) : list (list (list cell) -> N) :=
  match fs with
  | FNil => []
  | FNormal _ _ r | FLength _ _ r | FVar _ r => len_fns r
  | FArr _ lf r => lf :: len_fns r
  end.

(** [self_mut.x = layout_controllers.x;] for each controller: drops the old value, then stores the
    new one. [dp v] says that the destructor of [v] panics; the assignment still stores the new
    value while unwinding, and the not yet assigned new controllers are dropped. *)
Fixpoint set_ctrls (a : N) (dp : list cell -> bool) (cf : list (N * fty)) (news : list (list cell))
    : M world unit :=
  match cf, news with
  | [], [] => ret tt
  | (off, f) :: cf', v :: news' =>
      old <- load (wrapping_add a off) (f_size f) (f_align f) ;;
      drop_value f old ;;;
      store (wrapping_add a off) (f_align f) v ;;;
      if f_drop f && dp old
      then for_each (fun '(f, v) => drop_value f v) (combine (map snd cf') news') ;;; panic
      else set_ctrls a dp cf' news'
  | _, _ => undef UType
  end.

(** Returns [true] for Ok(()), [false] for Err(LayoutMismatch); in the latter case the new
    controllers are dropped. All comparisons are evaluated (&, not &&); a length expression that panics
    unwinds and drops the new controllers. *)
Definition try_set_layout_controllers (fs : flds) (a : N) (dp : list cell -> bool)
    (news : list (list cell)) : M world bool :=
  before <- load_ctrls fs a ;;
  valid <- on_unwind
    (mapM (fun lf : list (list cell) -> N => x <- len_call (lf before) ;; y <- len_call (lf news) ;; ret (x =? y)) (len_fns fs))
    (for_each (fun '(f, v) => drop_value f v) (combine (map snd (ctrl_fields fs)) news)) ;;
  if forallb (fun b => b) valid
  then set_ctrls a dp (ctrl_fields fs) news ;;; ret true
  else for_each (fun '(f, v) => drop_value f v) (combine (map snd (ctrl_fields fs)) news) ;;;
       ret false.

(** ** Constructors *)

(** ArrayLen::from_usize (array.rs:413-441): None if the value does not fit. *)
Definition from_usize (k : lenk) (x : N) : option N := if x <? len_lim k then Some x else None.
(** Array::try_copy (array.rs:261-268). *)
Definition array_try_copy (k : lenk) (src : list (list cell)) : option init :=
  match from_usize k (len src) with
  | Some n => Some (ISized n (ACopyFrom src))
  | None => None
  end.
(** Array::try_clone_from_slice (array.rs:286-295). *)
Definition array_try_clone (k : lenk) (src : list (list cell)) : option init :=
  match from_usize k (len src) with
  | Some n => Some (ISized n (ACloneFrom src))
  | None => None
  end.
(** u8 *)
Definition u8 : fty := mkF 1 1 false (fun v => Some v).
(** Str<Len> (str.rs:38-92). *)
Definition TStr (k : lenk) : vty := TNew (TArray u8 k).
(** Str::try_copy (str.rs:152-154); s.as_bytes() is a slice of u8. *)
Definition str_try_copy (k : lenk) (s : list N) : option init :=
  match array_try_copy k (map (fun b => [By b]) s) with
  | Some i => Some (INew i)
  | None => None
  end.

(** Array::copy (array.rs:181-186), Array::clone_from_slice (197-202), Str::copy (str.rs:137-139): the
    usize versions, which unwrap. *)
Definition unwrap {A} (o : option A) : M world A := match o with Some x => ret x | None => panic end.
Definition array_copy (src : list (list cell)) : M world init := unwrap (array_try_copy LUsize src).
Definition array_clone_from_slice (src : list (list cell)) : M world init := unwrap (array_try_clone LUsize src).
Definition str_copy (s : list N) : M world init := unwrap (str_try_copy LUsize s).
(** Array::len_short (array.rs:217-219); Array::len() is the length of the slice deref returns
    (array.rs:162-168). *)
Definition array_len_short (k : lenk) (a : N) : M world N := load_len k a.
Definition array_len (f : fty) (k : lenk) (a : N) : M world N :=
  l <- calc_layout (TArray f k) a ;;
  match l with LyArr _ n _ => ret n | _ => undef UType end.
(** Deref for Str (str.rs:94-103): the bytes of the inner array, reinterpreted. *)
Fixpoint to_bytes (xs : list (list cell)) : option (list N) :=
  match xs with
  | [] => Some []
  | [By b] :: r => option_map (cons b) (to_bytes r)
  | _ => None
  end.
Definition str_deref (k : lenk) (a : N) : M world (list N) :=
  v <- view (TStr k) a ;;
  match v with
  | VNew (VArr xs) => match to_bytes xs with Some s => ret s | None => undef UUninit end
  | _ => undef UType
  end.

(** new_array (array_init.rs:48-58): a local array of n uninitialised slots at [p] is filled and
    returned. *)
Definition new_array (f : fty) (n : N) (ai : ainit) (p : N) : M world (list (list cell)) :=
  ainit_run f ai p n ;;;
  mapM (fun i => load (p + i * f_size f) (f_size f) (f_align f)) (upto n).
