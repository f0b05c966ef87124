(** TypeModel.v - the types of the crate as Rust's type system sees them: which lifetimes they carry and how
    they may be coerced (variance), and which of them may cross threads (Send, Sync) or be unpinned (Unpin).
    For all of these rustc looks at nothing but the fields of the struct definitions; the definitions below
    are those of /repo, one by one. The crate has no impl of Send, Sync or Unpin.

    Not modelled: the layout types and the Cloner of tuples (associated types in their fields). *)
From Verif Require Export Program.

(** ** Rust types *)
(** A type of the user: a type constructor [c] applied to one lifetime. rustc knows of it how it varies in
    the lifetime and which auto traits it has. *)
Inductive variance := Covariant | Contravariant | Invariant.
Record tenv := mkTE { u_variance : nat -> variance; u_send : nat -> bool; u_sync : nat -> bool; u_unpin : nat -> bool }.
Inductive rty :=
| RNum                                (* usize, u8 .. u64 *)
| RPinned                             (* PhantomPinned *)
| RUser (c : nat) (a : nat)
| RRef (a : nat) (t : rty)            (* &'a t *)
| RMut (a : nat) (t : rty)            (* &'a mut t *)
| RNonNull (t : rty)
| RPin (t : rty)
| RPhantom (t : rty)
| RSlice (t : rty)
| RUnit | RProd (t u : rty).          (* the fields of a struct, one after the other *)
Definition rstruct (fields : list rty) : rty := fold_right RProd RUnit fields.

(** The rules of rustc for auto traits: a struct has the trait if all its fields do; &T is Send if T is Sync;
    NonNull is neither Send nor Sync; PhantomData<T> is like T; references and pointers are Unpin. *)
Fixpoint sync (E : tenv) (t : rty) : bool :=
  match t with
  | RNum | RPinned | RUnit => true
  | RUser c _ => u_sync E c
  | RRef _ t | RMut _ t | RPin t | RPhantom t | RSlice t => sync E t
  | RNonNull _ => false
  | RProd t u => sync E t && sync E u
  end.
Fixpoint send (E : tenv) (t : rty) : bool :=
  match t with
  | RNum | RPinned | RUnit => true
  | RUser c _ => u_send E c
  | RRef _ t => sync E t
  | RMut _ t | RPin t | RPhantom t | RSlice t => send E t
  | RNonNull _ => false
  | RProd t u => send E t && send E u
  end.
Fixpoint runpin (E : tenv) (t : rty) : bool :=
  match t with
  | RNum | RUnit | RRef _ _ | RMut _ _ | RNonNull _ => true
  | RPinned => false
  | RUser c _ => u_unpin E c
  | RPin t | RPhantom t | RSlice t => runpin E t
  | RProd t u => runpin E t && runpin E u
  end.

(** The rules of rustc for coercions between types that differ only in lifetimes. [O a b]: 'a outlives 'b. *)
Inductive sub (E : tenv) (O : nat -> nat -> Prop) : rty -> rty -> Prop :=
| S_num : sub E O RNum RNum
| S_pinned : sub E O RPinned RPinned
| S_unit : sub E O RUnit RUnit
| S_co : forall c a b, u_variance E c = Covariant -> O a b -> sub E O (RUser c a) (RUser c b)
| S_contra : forall c a b, u_variance E c = Contravariant -> O b a -> sub E O (RUser c a) (RUser c b)
| S_inv : forall c a b, u_variance E c = Invariant -> O a b -> O b a -> sub E O (RUser c a) (RUser c b)
| S_ref : forall a b t u, O a b -> sub E O t u -> sub E O (RRef a t) (RRef b u)
| S_mut : forall a b t u, O a b -> sub E O t u -> sub E O u t -> sub E O (RMut a t) (RMut b u)
| S_nonnull : forall t u, sub E O t u -> sub E O (RNonNull t) (RNonNull u)
| S_pin : forall t u, sub E O t u -> sub E O (RPin t) (RPin u)
| S_phantom : forall t u, sub E O t u -> sub E O (RPhantom t) (RPhantom u)
| S_slice : forall t u, sub E O t u -> sub E O (RSlice t) (RSlice u)
| S_prod : forall t u t' u', sub E O t t' -> sub E O u u' -> sub E O (RProd t u) (RProd t' u').

(** ** The struct definitions of the crate *)
(** marker.rs:37, 90 *)
Definition r_field_marker (t : rty) : rty := rstruct [RPinned; RPhantom t].
Definition r_array_marker (t : rty) : rty := rstruct [RPinned; RPhantom (RSlice t)].
(** array.rs:101-104 *)
Definition r_array (t : rty) : rty := rstruct [RNum; r_array_marker t].
(** lib.rs:685; a newtype, newtype.rs:186 *)
Definition r_fixed (t : rty) : rty := rstruct [t].
Definition r_newtype (t : rty) : rty := rstruct [t].
(** vbox.rs:35, owned.rs:69 *)
Definition r_vbox (t : rty) : rty := rstruct [RNonNull t].
Definition r_owned (a : nat) (t : rty) : rty := rstruct [RNonNull t; RPhantom (RRef a (RSlice RNum))].
(** seq.rs:425-436; UncheckedIndexing and CheckedIndexing are unit structs (seq.rs:152, 220) *)
Definition r_seq (t : rty) : rty := rstruct [RNonNull t; RNum; RNum; RNum; RUnit].
(** seq.rs:1094-1098, 1176-1180, 1291-1296 *)
Definition r_iter (a : nat) (t : rty) : rty := rstruct [RNonNull t; RNum; RPhantom (RRef a (RSlice t))].
Definition r_iter_mut (a : nat) (t : rty) : rty := rstruct [RNonNull t; RNum; RPhantom (RMut a (RSlice t))].
Definition r_owned_elems (a : nat) (t : rty) : rty := rstruct [RNonNull t; RNum; RPhantom (RRef a (RSlice RNum))].
(** lib.rs:526 VCopier, 750 FixedLenCloner; array_init.rs:206 CopyFrom, 239 CloneFrom; array.rs:351 SizedInit, 309 ArrayCloner *)
Definition r_vcopier (a : nat) (t : rty) : rty := rstruct [RRef a t].
Definition r_fixed_cloner (a : nat) (t : rty) : rty := rstruct [RRef a t].
Definition r_copy_from (a : nat) (t : rty) : rty := rstruct [RRef a (RSlice t)].
Definition r_clone_from (a : nat) (t : rty) : rty := rstruct [RRef a (RSlice t)].
Definition r_sized_init (i : rty) : rty := rstruct [RNum; i].
Definition r_array_cloner (a : nat) (t : rty) : rty := rstruct [r_sized_init (r_clone_from a t)].

(** The type of an object; [R] gives the Rust type behind each fixed-length type. FixedLen, Array, newtypes;
    a tuple has a FieldMarker for each component (tuple.rs:126), a struct of define_varlen its header fields
    as they are, a FieldMarker or ArrayMarker for the others (varlen_macro/src/lib.rs:329-336, decl_ty 799,
    833, 897, 978). *)
Fixpoint r_obj (R : fty -> rty) (t : vty) : rty :=
  match t with
  | TFixed f => r_fixed (R f)
  | TArray f _ => r_array (R f)
  | TNew t => r_newtype (r_obj R t)
  | TRec _ _ _ fs => r_flds R fs
  end
with r_flds (R : fty -> rty) (fs : flds) : rty :=
  match fs with
  | FNil => RUnit
  | FNormal _ f r | FLength _ f r => RProd (R f) (r_flds R r)
  | FVar t r => RProd (r_field_marker (r_obj R t)) (r_flds R r)
  | FArr f _ r => RProd (r_array_marker (R f)) (r_flds R r)
  end.
(** Refs<'a> and Muts<'a> (tuple.rs:93, 97; varlen_macro/src/lib.rs:307-319 with ref_ty 803, 839, 904, 989
    and mut_ty 806, 842, 907, 992). *)
Fixpoint r_refs (R : fty -> rty) (a : nat) (fs : flds) : rty :=
  match fs with
  | FNil => RUnit
  | FNormal _ f r | FLength _ f r => RProd (RRef a (R f)) (r_refs R a r)
  | FVar t r => RProd (RRef a (r_obj R t)) (r_refs R a r)
  | FArr f _ r => RProd (RRef a (RSlice (R f))) (r_refs R a r)
  end.
Fixpoint r_muts (R : fty -> rty) (a : nat) (fs : flds) : rty :=
  match fs with
  | FNil => RUnit
  | FNormal _ f r => RProd (RMut a (R f)) (r_muts R a r)
  | FLength _ f r => RProd (RRef a (R f)) (r_muts R a r)
  | FVar t r => RProd (RPin (RMut a (r_obj R t))) (r_muts R a r)
  | FArr f _ r => RProd (RMut a (RSlice (R f))) (r_muts R a r)
  end.

(** ** Using an object through handles *)
(** The ways to hold an object of type [t]: owners (VBox, Owned, Seq, OwnedElems) and borrowers
    (&, Pin<&mut>, Iter, IterMut, and the initializers that borrow, VCopier ...). *)
Inductive hkind := HVBox | HOwned | HSeq | HElems | HRef | HIter | HCopier | HPinMut | HIterMut.
Definition h_type (k : hkind) (a : nat) (t : rty) : rty :=
  match k with
  | HVBox => r_vbox t | HOwned => r_owned a t | HSeq => r_seq t | HElems => r_owned_elems a t
  | HRef => RRef a t | HIter => r_iter a t | HCopier => r_vcopier a t
  | HPinMut => RPin (RMut a t) | HIterMut => r_iter_mut a t
  end.
(** What the methods of the handles offer: owning handles have both as_mut / muts / iter_mut
    (vbox.rs:84, owned.rs:146, seq.rs:731, 1298) and Deref / iter; Pin<&mut> and IterMut items can be written
    to and reborrowed; &, Iter and VCopier only read. *)
Definition h_owns (k : hkind) : bool := match k with HVBox | HOwned | HSeq | HElems => true | _ => false end.
Definition h_writes (k : hkind) : bool := match k with HPinMut | HIterMut => true | k => h_owns k end.
(** A handle type with a lifetime parameter; for VBox and Seq the lifetime is the scope of the variable. *)
Definition h_param (k : hkind) : bool := match k with HVBox | HSeq => false | _ => true end.
Record handle := mkHd { hd_kind : hkind; hd_life : nat; hd_type : rty }.
(** One object in a program: the type of the value in it now (the type of the expression it was
    written from), and the handles on it, the active one first, each borrowed from the next one. *)
Record tstate := mkTS { ts_value : rty; ts_handles : list handle }.
(** What safe code can do with the active handle: coerce it, as rustc allows for its type; hand the object
    from one owner to another (VBox or Owned as an initializer of an element of a Seq or of another box,
    vbox.rs:179, owned.rs:214; take_elems, seq.rs:893; next of OwnedElems, 1298), its storage then being another; borrow the object, mutably
    only from a handle that can write, for a lifetime within that of the handle; give a borrow back; write a
    value of (a subtype of) the element type. *)
Inductive tstep (E : tenv) (O : nat -> nat -> Prop) : tstate -> tstate -> Prop :=
| TS_coerce : forall v k a t b u hs, sub E O (h_type k a t) (h_type k b u) -> (h_param k = false -> b = a) ->
    tstep E O (mkTS v (mkHd k a t :: hs)) (mkTS v (mkHd k b u :: hs))
| TS_move : forall v k a t k' b hs, h_owns k = true -> h_owns k' = true ->
    tstep E O (mkTS v (mkHd k a t :: hs)) (mkTS v (mkHd k' b t :: hs))
| TS_borrow : forall v k a t k' b hs, h_owns k' = false -> (h_writes k' = true -> h_writes k = true) -> O a b ->
    tstep E O (mkTS v (mkHd k a t :: hs)) (mkTS v (mkHd k' b t :: mkHd k a t :: hs))
| TS_return : forall v h hs, hs <> [] -> tstep E O (mkTS v (h :: hs)) (mkTS v hs)
| TS_write : forall v k a t u hs, h_writes k = true -> sub E O u t ->
    tstep E O (mkTS v (mkHd k a t :: hs)) (mkTS u (mkHd k a t :: hs)).
