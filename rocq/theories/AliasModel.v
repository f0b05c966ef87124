(** AliasModel.v - the references the crate creates, under Rust's aliasing rules.

    The model of memory in Machine.v has no aliasing rules. Here memory is forgotten and only the borrow
    state of every byte is kept, following Tree Borrows (Villani, Hostert, Dreyer, Jung, PLDI 2025; the
    rules of Miri): every reference has a tag, tags form a tree, and each tag has a permission
    on each byte that changes with the accesses made through it, its descendants, and all other tags.
    Simplifications: no protectors (while a function below runs, all accesses are made through its own
    arguments), no interior mutability. Addresses are unbounded (that the crate's arithmetic does not wrap is C01-C05). *)
From Verif Require Export Spec Program.

(** ** Tree Borrows *)
(** A tag is the list of numbers on the way to the root, which is []; the tag of the allocation. *)
Definition tag : Type := list nat.
Fixpoint tag_eqb (t u : tag) : bool :=
  match t, u with [], [] => true | i :: t, j :: u => Nat.eqb i j && tag_eqb t u | _, _ => false end.
(** [under t u]: [t] is [u] or a descendant of [u]. *)
Fixpoint under (t u : tag) : bool :=
  tag_eqb t u || match t with [] => false | _ :: t' => under t' u end.
Inductive perm := Reserved | Active | Frozen | Disabled.
Inductive akind := Rd | Wr.
(** The permission of a tag after an access through it or a descendant ([None]: undefined behaviour), and
    after an access through another tag. *)
Definition local (k : akind) (p : perm) : option perm :=
  match k, p with
  | _, Disabled => None
  | Wr, Frozen => None
  | Wr, _ => Some Active
  | Rd, p => Some p
  end.
Definition foreign (k : akind) (p : perm) : perm :=
  match k, p with
  | Wr, _ => Disabled
  | Rd, Active => Frozen
  | Rd, p => p
  end.
Record bstate := mkBr { br_next : nat; br_perms : list (tag * (N -> perm)) }.
(** Computations on the borrow state; [None] is undefined behaviour. *)
Definition B (A : Type) : Type := bstate -> option (A * bstate).
Definition bret {A} (x : A) : B A := fun b => Some (x, b).
Definition bbind {A C} (m : B A) (k : A -> B C) : B C := fun b => match m b with Some (x, b') => k x b' | None => None end.
Notation "x <== m ;; k" := (bbind m (fun x => k)) (at level 61, m at next level, right associativity).
Notation "m1 ==;; m2" := (bbind m1 (fun _ => m2)) (at level 61, right associativity).
(** An access to byte [x] through tag [t]. *)
Definition set_perm (x : N) (q : perm) (π : N -> perm) : N -> perm := fun y => if N.eqb y x then q else π y.
Fixpoint access_all (k : akind) (t : tag) (x : N) (l : list (tag * (N -> perm))) : option (list (tag * (N -> perm))) :=
  match l with
  | [] => Some []
  | (u, π) :: r =>
      match access_all k t x r with
      | None => None
      | Some r' =>
          if under t u
          then match local k (π x) with Some q => Some ((u, set_perm x q π) :: r') | None => None end
          else Some ((u, set_perm x (foreign k (π x)) π) :: r')
      end
  end.
Definition access (k : akind) (t : tag) (x : N) : B unit := fun b =>
  match access_all k t x (br_perms b) with
  | Some l => Some (tt, mkBr (br_next b) l)
  | None => None
  end.
Fixpoint access_list (k : akind) (t : tag) (xs : list N) : B unit :=
  match xs with [] => bret tt | x :: r => access k t x ==;; access_list k t r end.
Definition access_range (k : akind) (t : tag) (a n : N) : B unit := access_list k t (map (fun i => a + i) (upto n)).
(** A new child of [p], with permission [q]. A reference carries its permission also for bytes outside the
    [n] bytes its type says, which are then not accessed; if [strict], it has none there, as in
    Stacked Borrows. *)
Definition child (strict : bool) (p : tag) (q : perm) (a n : N) : B tag := fun b =>
  Some (br_next b :: p,
        mkBr (S (br_next b)) ((br_next b :: p, fun x => if strict && negb ((a <=? x) && (x <? a + n)) then Disabled else q) :: br_perms b)).
(** Creating a shared reference to [n] bytes from a pointer with tag [p], and a mutable one; a mutable
    reference to a type that is not Unpin keeps the tag of the pointer. *)
Definition retag_shared (strict : bool) (p : tag) (a n : N) : B tag :=
  c <== child strict p Frozen a n ;; access_range Rd c a n ==;; bret c.
Definition retag_mut (strict : bool) (unpin : bool) (p : tag) (a n : N) : B tag :=
  if unpin then c <== child strict p Reserved a n ;; access_range Rd c a n ==;; bret c else bret p.

(** ** The functions of the crate that make references *)
(** The references to the layout controllers of a struct, and reading them (varlen_macro/src/lib.rs:349-353). *)
Fixpoint al_ctrls (s : bool) (cs : list (N * fty)) (a : N) (p : tag) {struct cs} : B unit :=
  match cs with
  | [] => bret tt
  | (off, f) :: r => c <== retag_shared s p (a + off) (f_size f) ;; al_ctrls s r a p ==;; access_range Rd c (a + off) (f_size f)
  end.
(** calculate_layout(&self) with result [l], the reference having tag [p] (array.rs:135-145, newtype.rs:194-196,
    tuple.rs:163-178, varlen_macro/src/lib.rs:348-365): the length of an Array is read; a newtype asks
    &self.0; a record makes references to its controllers, which the length expressions read, and for each
    nested field a reference to it (cat_field_fast, macro_support.rs:118-135) whose layout is asked for.
    Simplification: all length expressions read all controllers at the start. *)
Fixpoint al_layout (s : bool) (t : vty) (l : lay) (a : N) (p : tag) {struct t} : B unit :=
  match t, l with
  | TFixed _, _ => bret tt
  | TArray _ k, _ => access_range Rd p a (len_size k)
  | TNew t', l => c <== retag_shared s p a (head_size t') ;; al_layout s t' l a c
  | TRec _ _ _ fs, LyRec _ es => al_ctrls s (ctrl_fields fs) a p ==;; al_nested s fs es a p
  | _, _ => fun _ => None
  end
with al_nested (s : bool) (fs : flds) (es : list (N * lay)) (a : N) (p : tag) {struct fs} : B unit :=
  match fs, es with
  | FNil, _ => bret tt
  | FNormal _ _ r, es | FLength _ _ r, es => al_nested s r es a p
  | FVar t r, (off, l) :: es' =>
      c <== retag_shared s p (a + off) (head_size t) ;; al_layout s t l (a + off) c ==;; al_nested s r es' a p
  | FArr _ _ r, _ :: es' => al_nested s r es' a p
  | _, _ => fun _ => None
  end.

(** What a reference refers to: an object with its layout; plain bytes (a header field, a slice), with the
    Unpin-ness of their type; the elements of a sequence, as held by the Seq or an iterator over it. *)
Inductive ekind := ESeq | EIter | EIterMut | ETake.
Inductive robj := OBytes (unpin : bool) | OObj (t : vty) (l : lay) | OElems (k : ekind) (t : vty) (ls : list lay).
Record aref := mkAR { r_tag : tag; r_obj : robj; r_addr : N; r_size : N; r_mut : bool }.

(** refs(&self): tuple.rs:132-138, varlen_macro/src/lib.rs:443-452 with ref_field 811, 847, 911, 996;
    ref_field and ref_array are macro_support.rs:62-67, 162-164. The same for Array: Deref
    (array.rs:162-168), FixedLen: .0, newtypes: inner (newtype.rs:225). *)
Fixpoint al_refs_flds (s : bool) (fs : flds) (es : list (N * lay)) (a : N) (p : tag) : B (list aref) :=
  match fs, es with
  | FNil, _ => bret []
  | FNormal off f r, es | FLength off f r, es =>
      c <== retag_shared s p (a + off) (f_size f) ;; rs <== al_refs_flds s r es a p ;;
      bret (mkAR c (OBytes true) (a + off) (f_size f) false :: rs)
  | FVar t r, (off, l) :: es' =>
      c <== retag_shared s p (a + off) (head_size t) ;; rs <== al_refs_flds s r es' a p ;;
      bret (mkAR c (OObj t l) (a + off) (lay_size l) false :: rs)
  | FArr f _ r, (off, LyLen n) :: es' =>
      c <== retag_shared s p (a + off) (n * f_size f) ;; rs <== al_refs_flds s r es' a p ;;
      bret (mkAR c (OBytes true) (a + off) (n * f_size f) false :: rs)
  | _, _ => fun _ => None
  end.
Definition al_refs (s : bool) (t : vty) (l : lay) (a : N) (p : tag) : B (list aref) :=
  match t, l with
  | TFixed f, _ => c <== retag_shared s p a (f_size f) ;; bret [mkAR c (OBytes true) a (f_size f) false]
  | TNew t', l => c <== retag_shared s p a (head_size t') ;; bret [mkAR c (OObj t' l) a (lay_size l) false]
  | TArray f _, LyArr off n _ =>
      d <== retag_shared s p a (head_size t) ;; al_layout s t l a d ==;;
      c <== retag_shared s p (a + off) (n * f_size f) ;; bret [mkAR c (OBytes true) (a + off) (n * f_size f) false]
  | TRec _ _ _ fs, LyRec _ es =>
      d <== retag_shared s p a (head_size t) ;; al_layout s t l a d ==;; al_refs_flds s fs es a p
  | _, _ => fun _ => None
  end.
(** muts(self: Pin<&mut Self>): tuple.rs:141-151, varlen_macro/src/lib.rs:429-441 with mut_field 814, 850,
    914, 999; mut_field and mut_array are macro_support.rs:70-72, 157-159. The layout is calculated through
    a shared reference made from self; then references to the fields are made from mut_ref and mut_ptr =
    mut_ref as *mut _, which has the same tag. A controller is borrowed mutably and coerced to a shared reference (842,
    850). The same for Array: mut_slice (array.rs:232-242), FixedLen: .0, newtypes: inner_mut
    (newtype.rs:230-237). [U] says which fixed-length types are Unpin. *)
Fixpoint al_muts_flds (s : bool) (U : fty -> bool) (fs : flds) (es : list (N * lay)) (a : N) (p : tag) : B (list aref) :=
  match fs, es with
  | FNil, _ => bret []
  | FNormal off f r, es =>
      c <== retag_mut s (U f) p (a + off) (f_size f) ;; rs <== al_muts_flds s U r es a p ;;
      bret (mkAR c (OBytes (U f)) (a + off) (f_size f) true :: rs)
  | FLength off f r, es =>
      d <== retag_mut s (U f) p (a + off) (f_size f) ;; c <== retag_shared s d (a + off) (f_size f) ;; rs <== al_muts_flds s U r es a p ;;
      bret (mkAR c (OBytes true) (a + off) (f_size f) false :: rs)
  | FVar t r, (off, l) :: es' =>
      c <== retag_mut s (unpin U t) p (a + off) (head_size t) ;; rs <== al_muts_flds s U r es' a p ;;
      bret (mkAR c (OObj t l) (a + off) (lay_size l) true :: rs)
  | FArr f _ r, (off, LyLen n) :: es' =>
      c <== retag_mut s (U f) p (a + off) (n * f_size f) ;; rs <== al_muts_flds s U r es' a p ;;
      bret (mkAR c (OBytes (U f)) (a + off) (n * f_size f) true :: rs)
  | _, _ => fun _ => None
  end.
Definition al_muts (s : bool) (U : fty -> bool) (t : vty) (l : lay) (a : N) (p : tag) : B (list aref) :=
  match t, l with
  | TFixed f, _ => c <== retag_mut s (U f) p a (f_size f) ;; bret [mkAR c (OBytes (U f)) a (f_size f) true]
  | TNew t', l => c <== retag_mut s (unpin U t') p a (head_size t') ;; bret [mkAR c (OObj t' l) a (lay_size l) true]
  | TArray f _, LyArr off n _ =>
      d <== retag_shared s p a (head_size t) ;; al_layout s t l a d ==;;
      c <== retag_mut s (U f) p (a + off) (n * f_size f) ;; bret [mkAR c (OBytes (U f)) (a + off) (n * f_size f) true]
  | TRec _ _ _ fs, LyRec _ es =>
      d <== retag_shared s p a (head_size t) ;; al_layout s t l a d ==;;
      m <== retag_mut s (unpin U t) p a (head_size t) ;; al_muts_flds s U fs es a m
  | _, _ => fun _ => None
  end.
(** A reference to the same thing: Deref and as_mut of VBox and Owned (vbox.rs:84, 158-164; owned.rs:146, 207-212),
    Pin::as_ref, Pin::as_mut, &*r, &mut *r. The static type of an object has the size of its header. *)
Definition static_size (o : robj) (n : N) : N := match o with OObj t _ => head_size t | _ => n end.
Definition is_unpin (U : fty -> bool) (o : robj) : bool := match o with OBytes u => u | OObj t _ => unpin U t | OElems _ _ _ => false end.
Definition al_share (s : bool) (r : aref) : B aref :=
  c <== retag_shared s (r_tag r) (r_addr r) (static_size (r_obj r) (r_size r)) ;; bret (mkAR c (r_obj r) (r_addr r) (r_size r) false).
Definition al_reborrow (s : bool) (U : fty -> bool) (r : aref) : B aref :=
  c <== retag_mut s (is_unpin U (r_obj r)) (r_tag r) (r_addr r) (static_size (r_obj r) (r_size r)) ;; bret (mkAR c (r_obj r) (r_addr r) (r_size r) true).
(** next() of Iter, IterMut and OwnedElems (seq.rs:1131-1141, 1217-1227, 1302-1312): a reference to the
    element is made from the raw pointer (an Owned for OwnedElems, which is a raw pointer), its layout is
    calculated through it, and the pointer moves on by the size, rounded up to ALIGN. The result is the
    element and the iterator afterwards. *)
Definition al_next (s : bool) (U : fty -> bool) (r : aref) : B (aref * aref) :=
  match r_obj r with
  | OElems k t (l :: ls) =>
      let a := r_addr r in
      c <== match k with
            | EIter => retag_shared s (r_tag r) a (head_size t)
            | EIterMut => retag_mut s (unpin U t) (r_tag r) a (head_size t)
            | _ => bret (r_tag r)
            end ;;
      d <== retag_shared s c a (head_size t) ;; al_layout s t l a d ==;;
      let step := up (lay_size l) (valign t) in
      bret (mkAR c (OObj t l) a (lay_size l) (match k with EIter => false | _ => r_mut r end), mkAR (r_tag r) (OElems k t ls) (a + step) (r_size r - step) (r_mut r))
  | _ => fun _ => None
  end.

(** Reading and writing all of [n] bytes. *)
Definition use_all (p : tag) (a n : N) : B unit := access_range Rd p a n ==;; access_range Wr p a n.
(** drop_in_place of fixed-length values: the destructor gets a mutable reference and may read and write
    all of it. *)
Definition al_drop (s : bool) (U : fty -> bool) (f : fty) (a n : N) (p : tag) : B unit :=
  if f_drop f then c <== retag_mut s (U f) p a n ;; use_all c a n else bret tt.
(** vdrop(self: Pin<&mut Self>, layout): lib.rs:733-737 (FixedLen), array.rs:153-159 with macro_support.rs:56-59,
    newtype.rs:202-207, tuple.rs:174-182, varlen_macro/src/lib.rs:382-388 with drop_field 816-818, 852-854, 917-919,
    1002-1004; vdrop_field is macro_support.rs:152-155. *)
Fixpoint al_vdrop (s : bool) (U : fty -> bool) (t : vty) (l : lay) (a : N) (p : tag) {struct t} : B unit :=
  match t, l with
  | TFixed f, _ => al_drop s U f a (f_size f) p
  | TArray f _, LyArr off n _ => al_drop s U f (a + off) (n * f_size f) p
  | TNew t', l => if needs_vdrop t' then c <== retag_mut s (unpin U t') p a (head_size t') ;; al_vdrop s U t' l a c else bret tt
  | TRec kd _ _ fs, LyRec _ es =>
      match kd with
      | KTuple => if fneeds fs then al_vdrop_flds s U fs es a p else bret tt
      | KStruct => al_vdrop_flds s U fs es a p
      end
  | _, _ => fun _ => None
  end
with al_vdrop_flds (s : bool) (U : fty -> bool) (fs : flds) (es : list (N * lay)) (a : N) (p : tag) {struct fs} : B unit :=
  match fs, es with
  | FNil, _ => bret tt
  | FNormal off f r, es | FLength off f r, es => al_drop s U f (a + off) (f_size f) p ==;; al_vdrop_flds s U r es a p
  | FVar t r, (off, l) :: es' =>
      c <== retag_mut s (unpin U t) p (a + off) (head_size t) ;; al_vdrop s U t l (a + off) c ==;; al_vdrop_flds s U r es' a p
  | FArr f _ r, (off, LyLen n) :: es' => al_drop s U f (a + off) (n * f_size f) p ==;; al_vdrop_flds s U r es' a p
  | _, _ => fun _ => None
  end.
(** Drop of Owned and of VBox (owned.rs:196-205, vbox.rs:146-156): the layout is calculated through a shared
    reference, vdrop gets a mutable one, both made from the raw pointer; deallocating ([dealloc]) is a write to the
    whole object through the raw pointer. *)
Definition al_free (s : bool) (U : fty -> bool) (dealloc : bool) (t : vty) (l : lay) (a : N) (p : tag) : B unit :=
  c <== retag_shared s p a (head_size t) ;; al_layout s t l a c ==;;
  d <== retag_mut s (unpin U t) p a (head_size t) ;; al_vdrop s U t l a d ==;;
  if dealloc then access_range Wr p a (lay_size l) else bret tt.
(** try_set_layout_controllers(mut self: Pin<&mut Self>, ..) of a struct (varlen_macro/src/lib.rs:454-483), when it
    succeeds: the length expressions get references to the controllers; then these are assigned through
    self_mut, which drops the old values. Simplification: the destructors access the old values through self_mut. *)
Fixpoint al_assign (cs : list (N * fty)) (a : N) (p : tag) : B unit :=
  match cs with [] => bret tt | (off, f) :: r => use_all p (a + off) (f_size f) ==;; al_assign r a p end.
Definition al_set (s : bool) (U : fty -> bool) (t : vty) (a : N) (p : tag) : B unit :=
  match t with
  | TRec KStruct _ _ fs =>
      al_ctrls s (ctrl_fields fs) a p ==;; m <== retag_mut s (unpin U t) p a (head_size t) ;; al_assign (ctrl_fields fs) a m
  | _ => fun _ => None
  end.
(** vcopy(&self) as an initializer (lib.rs:530-545): the layout is calculated and layout.size() bytes are read, through the
    reference. vclone(&self) only uses refs(), Deref and inner() and the references they give (lib.rs:754, array.rs:316, str.rs:179,
    tuple.rs:224), as a client may. *)
Definition al_copy (s : bool) (t : vty) (l : lay) (a : N) (p : tag) : B unit :=
  c <== retag_shared s p a (head_size t) ;; d <== retag_shared s c a (head_size t) ;; al_layout s t l a d ==;; access_range Rd c a (lay_size l).
(** initialize(self, dst, layout) of the initializers of arrays, newtypes, tuples and structs (array.rs:368-379,
    newtype.rs:217-219, tuple.rs:202-219, varlen_macro/src/lib.rs:416-424, lib.rs:717-719): the parts of the tail in order,
    arrays through a &mut [MaybeUninit<T>] (macro_support.rs:76-88), then the header, through the raw pointer. *)
Fixpoint al_init (s : bool) (U : fty -> bool) (t : vty) (l : lay) (a : N) (p : tag) {struct t} : B unit :=
  match t, l with
  | TFixed f, _ => access_range Wr p a (f_size f)
  | TArray f k, LyArr off n _ =>
      c <== retag_mut s (U f) p (a + off) (n * f_size f) ;; access_range Wr c (a + off) (n * f_size f) ==;; access_range Wr p a (len_size k)
  | TNew t', l => al_init s U t' l a p
  | TRec _ hs _ fs, LyRec _ es => al_init_flds s U fs es a p ==;; access_range Wr p a hs
  | _, _ => fun _ => None
  end
with al_init_flds (s : bool) (U : fty -> bool) (fs : flds) (es : list (N * lay)) (a : N) (p : tag) {struct fs} : B unit :=
  match fs, es with
  | FNil, _ => bret tt
  | FNormal _ _ r, es | FLength _ _ r, es => al_init_flds s U r es a p
  | FVar t r, (off, l) :: es' => al_init s U t l (a + off) p ==;; al_init_flds s U r es' a p
  | FArr f _ r, (off, LyLen n) :: es' =>
      c <== retag_mut s (U f) p (a + off) (n * f_size f) ;; access_range Wr c (a + off) (n * f_size f) ==;; al_init_flds s U r es' a p
  | _, _ => fun _ => None
  end.

(** ** Clients *)
(** A borrow: the reference, the borrow it was made from, whether it is still in use. *)
Record loan := mkLn { ln_ref : aref; ln_from : option nat; ln_live : bool }.
Definition astate : Type := (bstate * list loan)%type.
(** What a client does: access a byte through a reference; make a shared or mutable reference from
    another; call refs() or muts(); iterate over a sequence (iter, iter_mut, take_elems: seq.rs:709, 731, 893:
    the iterator gets a copy of the raw pointer); ask an iterator for the next element; stop using a reference;
    copy an object; set its layout controllers; drop it; initialize it (again). *)
Inductive aop :=
| AUse (i : nat) (k : akind) (x : N) | AShare (i : nat) | AReborrow (i : nat)
| ARefs (i : nat) | AMuts (i : nat)
| AIterate (i : nat) (k : ekind) | ANext (i : nat) | AEnd (i : nat)
| ACopy (i : nat) | ASet (i : nat) | ADrop (i : nat) (dealloc : bool) | AInit (i : nat).
Definition lend (i : nat) (r : aref) : loan := mkLn r (Some i) true.
Definition alias_step (s : bool) (U : fty -> bool) (o : aop) (st : astate) : option astate :=
  let '(b, ls) := st in
  let get i := match nth_error ls i with Some ln => Some (ln_ref ln) | None => None end in
  let new i (m : B (list aref)) := match m b with Some (rs, b') => Some (b', ls ++ map (lend i) rs) | None => None end in
  match o with
  | AUse i k x => match get i with Some r => match access k (r_tag r) x b with Some (_, b') => Some (b', ls) | None => None end | None => None end
  | AShare i => match get i with Some r => new i (x <== al_share s r ;; bret [x]) | None => None end
  | AReborrow i => match get i with Some r => new i (x <== al_reborrow s U r ;; bret [x]) | None => None end
  | ARefs i => match get i with Some (mkAR p (OObj t l) a _ _) => new i (al_refs s t l a p) | _ => None end
  | AMuts i => match get i with Some (mkAR p (OObj t l) a _ _) => new i (al_muts s U t l a p) | _ => None end
  | AIterate i k =>
      match get i with
      | Some (mkAR p (OElems ESeq t es) a n _) => Some (b, ls ++ [lend i (mkAR p (OElems k t es) a n (match k with EIter => false | _ => true end))])
      | _ => None
      end
  | ANext i =>
      match nth_error ls i with
      | Some (mkLn r from live) =>
          match al_next s U r b with
          | Some ((e, r'), b') => Some (b', update ls i (mkLn r' from live) ++ [mkLn e from true])
          | None => None
          end
      | None => None
      end
  | AEnd i => match nth_error ls i with Some (mkLn r from _) => Some (b, update ls i (mkLn r from false)) | None => None end
  | ACopy i => match get i with Some (mkAR p (OObj t l) a _ _) => new i (al_copy s t l a p ==;; bret []) | _ => None end
  | ASet i => match get i with Some (mkAR p (OObj t l) a _ _) => new i (al_set s U t a p ==;; bret []) | _ => None end
  | AInit i => match get i with Some (mkAR p (OObj t l) a _ _) => new i (al_init s U t l a p ==;; bret []) | _ => None end
  | ADrop i dealloc =>
      match nth_error ls i with
      | Some (mkLn (mkAR p (OObj t l) a n m) from _) =>
          match al_free s U dealloc t l a p b with
          | Some (_, b') => Some (b', update ls i (mkLn (mkAR p (OObj t l) a n m) from false))
          | None => None
          end
      | _ => None
      end
  end.
Fixpoint alias_run (s : bool) (U : fty -> bool) (os : list aop) (st : astate) : option astate :=
  match os with
  | [] => Some st
  | o :: r => match alias_step s U o st with Some st' => alias_run s U r st' | None => None end
  end.
