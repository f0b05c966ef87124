(** Init.v - initializers: varlen/src/array_init.rs and all [Initializer] implementations,
    destructors ([vdrop]), and the drop glue executed when construction unwinds. *)
From Verif Require Export Layout.

(** ** Initializers as data *)

(** ArrayInitializer implementations (array_init.rs). [g i] is the result of the i-th call of the
    user's closure / iterator ([None]: the closure panics / the iterator is exhausted or panics).
    A borrowed source slice that lies in an object of the model is given by its address and length
    ([ACopyAt], [ACloneAt]; the last argument is ghost, see below); any other slice (in a static, on the
    stack, in a Vec) by the values it holds, which cannot change while it is borrowed. [AUser ws fin] is a user-defined implementation of the trait (array_init.rs:60-94):
    given a slice of [n] slots it writes the values [ws n] into the slots with the given indices, in
    this order (an index out of range panics), and then returns ([fin n]) or panics. It can write a
    slot several times (MaybeUninit::write does not drop what it overwrites) and in any order. What
    it owns and drops itself is not modelled. *)
Inductive ainit :=
| AFillSeq (g : N -> option (list cell))        (* FillSequentially, array_init.rs:158 *)
| AFillDefault (g : N -> option (list cell))    (* FillWithDefault, array_init.rs:177 *)
| AIterPrefix (g : N -> option (list cell))     (* FromIterPrefix, array_init.rs:121 *)
| ACopyFrom (vs : list (list cell))             (* CopyFrom, array_init.rs:208 *)
| ACloneFrom (vs : list (list cell))            (* CloneFrom, array_init.rs:241 *)
| ACopyAt (a k : N) (ghost : list (list cell))  (* CopyFrom of the k elements at address a *)
| ACloneAt (a k : N) (ghost : list (list cell)) (* CloneFrom of the k elements at address a *)
| AMoveFrom (vs : list (list cell))             (* MoveFrom, array_init.rs:274 *)
| AUser (ws : N -> list (N * list cell)) (fin : N -> bool). (* a user's unsafe impl ArrayInitializer *)

(** Initializer implementations.
    - [IFixed v]: FixedLen(v) (lib.rs:712); also the plain value of a header field of a struct Init
    - [IFixedClone v]: FixedLenCloner(&v) (lib.rs:750), where v is not inside an object of the model;
      [IFixedCloneAt a _]: FixedLenCloner(&x), x at address a
    - [ISized n ai]: SizedInit(n, ai) (array.rs:351); [ArrayCloner] wraps it (array.rs:309)
    - [INew i]: the Init of a newtype (newtype.rs:184), or a newtype'd initializer
    - [IRec is]: tupN::Init(..) (tuple.rs:88), tupN::Cloner (tuple.rs:99), the Init struct of
      define_varlen (varlen_macro/src/lib.rs:300-305); one entry per field
    - [IArrF ai]: the entry of a #[varlen_array] field
    - [ICopy a _]: VCopier(&x), x at address a (lib.rs:526)
    - [IBox a _]: a VBox (vbox.rs:179), [IOwned a _]: an Owned (owned.rs:214).
    The second argument of the last three and of [IFixedCloneAt], and the third of [ACopyAt] and
    [ACloneAt], is ghost: no function of the model looks at it; it names, for the specification, the value
    stored at the address. *)
Inductive init :=
| IFixed (v : list cell)
| IFixedClone (v : list cell)
| IFixedCloneAt (a : N) (ghost : list cell)
| ISized (n : N) (ai : ainit)
| INew (i : init)
| IRec (is_ : list init)
| IArrF (ai : ainit)
| ICopy (a : N) (ghost : vval)
| IBox (a : N) (ghost : vval)
| IOwned (a : N) (ghost : vval).

(** The controller values of a struct Init ([&self.len1, ...], varlen_macro/src/lib.rs:397-401). *)
Fixpoint init_ctrls (fs : flds) (is_ : list init) : list (list cell) :=
  match fs, is_ with
  | FLength _ _ r, IFixed v :: is' => v :: init_ctrls r is'
  | FNormal _ _ r, _ :: is' | FVar _ r, _ :: is' | FArr _ _ r, _ :: is' => init_ctrls r is'
  | _, _ => []
  end.

(** ** Initializer::calculate_layout_cautious *)

(** lib.rs:713,760 (FixedLen, FixedLenCloner), array.rs:357-366 (SizedInit), newtype.rs:212,302
    (newtypes), tuple.rs:186-199 (tuple), varlen_macro/src/lib.rs:396-413 (struct), lib.rs:532
    (VCopier), vbox.rs:196 (VBox), owned.rs:225 (Owned). [init_tail] is the chain of
    [let (off, layout, size) = cat_field_cautious(...)?;] statements with macro_support.rs:91-114
    [cat_field_cautious] written out. A pair of type and initializer that does not type-check in
    Rust gives [UB UType]. *)
Fixpoint init_layout (t : vty) (i : init) {struct t} : M world (option lay) :=
  match i with
  | ICopy a _ | IBox a _ | IOwned a _ => l <- calc_layout t a ;; ret (Some l)
  | _ =>
      match t, i with
      | TFixed f, IFixed _ => ret (Some (LyFix (f_size f)))
      | TFixed f, IFixedClone _ | TFixed f, IFixedCloneAt _ _ => ret (Some (LyFix (f_size f)))
      | TArray f k, ISized n _ =>
          match cat_array_field_cautious f n (len_size k) with
          | None => ret None
          | Some (off, n, size) => ret (Some (LyArr off n size))
          end
      | TNew t, INew i => init_layout t i
      | TRec _ hs _ fs, IRec is_ =>
          q <- init_tail fs is_ (init_ctrls fs is_) hs ;;
          match q with
          | None => ret None
          | Some (es, size) => ret (Some (LyRec size es))
          end
      | _, _ => undef UType
      end
  end
with init_tail (fs : flds) (is_ : list init) (cs : list (list cell)) (size : N) {struct fs}
    : M world (option (list (N * lay) * N)) :=
  match fs, is_ with
  | FNil, [] => ret (Some ([], size))
  | FNormal _ _ r, IFixed _ :: is' | FLength _ _ r, IFixed _ :: is' => init_tail r is' cs size
  | FVar t r, i :: is' =>
      match checked_add size (valign t - 1) with
      | None => ret None
      | Some x =>
          let offset := mask_align x (valign t) in
          lo <- init_layout t i ;;
          match lo with
          | None => ret None
          | Some layout =>
              match checked_add offset (lay_size layout) with
              | None => ret None
              | Some size =>
                  q <- init_tail r is' cs size ;;
                  match q with
                  | None => ret None
                  | Some (es, s) => ret (Some ((offset, layout) :: es, s))
                  end
              end
          end
      end
  | FArr f lf r, IArrF _ :: is' =>
      n <- len_call (lf cs) ;;
      match cat_array_field_cautious f n size with
      | None => ret None
      | Some (offset, n, size) =>
          q <- init_tail r is' cs size ;;
          match q with
          | None => ret None
          | Some (es, s) => ret (Some ((offset, LyLen n) :: es, s))
          end
      end
  | _, _ => undef UType
  end.

(** ** Destructors *)

(** core::ptr::drop_in_place of one value of a fixed-size type. Here destructors are assumed not to
    panic (DropPanic.v models these functions again with panicking destructors) and not to touch
    the modelled memory. *)
Definition drop_leaf (f : fty) (a : N) : M world unit :=
  if f_drop f then
    bs <- load a (f_size f) (f_align f) ;; emit (EDrop bs)
  else ret tt.
(** Dropping a value held in a local variable. *)
Definition drop_value (f : fty) (v : list cell) : M world unit :=
  if f_drop f then emit (EDrop v) else ret tt.

(** macro_support.rs:56-59 [drop_array]: drop_in_place of a slice, in index order. *)
Definition drop_array (f : fty) (a off n : N) : M world unit :=
  let p := wrapping_add a off in
  check_ref p (n * f_size f) (f_align f) ;;;
  for_each (fun i => drop_leaf f (p + i * f_size f)) (upto n).

(** VarLen::vdrop(self, layout). lib.rs:733 (FixedLen), array.rs:153-159 (Array), newtype.rs:202-207
    (newtype), tuple.rs:174-182 (tuple), varlen_macro/src/lib.rs:382-388 with the drop_field
    snippets 816, 852, 917, 1002 (struct); macro_support.rs:151-154 [vdrop_field]. *)
Fixpoint vdrop (t : vty) (a : N) (l : lay) {struct t} : M world unit :=
  match t, l with
  | TFixed f, LyFix _ => drop_leaf f a
  | TArray f _, LyArr off n _ => drop_array f a off n
  | TNew t, l => if needs_vdrop t then vdrop t a l else ret tt
  | TRec kd _ _ fs, LyRec _ es =>
      match kd with
      | KTuple => if fneeds fs then vdrop_flds fs a es else ret tt
      | KStruct => vdrop_flds fs a es
      end
  | _, _ => undef UType
  end
with vdrop_flds (fs : flds) (a : N) (es : list (N * lay)) {struct fs} : M world unit :=
  match fs, es with
  | FNil, _ => ret tt
  | FNormal off f r, es | FLength off f r, es =>
      drop_leaf f (wrapping_add a off) ;;; vdrop_flds r a es
  | FVar t r, (off, l) :: es' =>
      check_ref (wrapping_add a off) (head_size t) (head_align t) ;;;
      vdrop t (wrapping_add a off) l ;;; vdrop_flds r a es'
  | FArr f _ r, (off, LyLen n) :: es' => drop_array f a off n ;;; vdrop_flds r a es'
  | _, _ => undef UType
  end.

(** ** Drop glue *)

(** Drop for VBox, vbox.rs:147-155 (the &*self deref is the [check_ref]). *)
Definition vbox_drop (t : vty) (a : N) : M world unit :=
  check_ref a (head_size t) (head_align t) ;;;
  l <- calc_layout t a ;;
  vdrop t a l ;;;
  dealloc a (lay_size l) (valign t).
(** Drop for Owned, owned.rs:197-205. *)
Definition owned_drop (t : vty) (a : N) : M world unit :=
  check_ref a (head_size t) (head_align t) ;;;
  l <- calc_layout t a ;;
  vdrop t a l.

(** Dropping an unused ArrayInitializer: only MoveFrom owns elements. (The drop of the user's own
    closure or iterator object is not modelled.) *)
Definition drop_ainit (f : fty) (ai : ainit) : M world unit :=
  match ai with
  | AMoveFrom vs => for_each (drop_value f) vs
  | _ => ret tt
  end.

(** Dropping an unused initializer (compiler-generated drop glue): fields in declaration order. *)
Fixpoint drop_init (t : vty) (i : init) {struct t} : M world unit :=
  match i with
  | ICopy _ _ => ret tt
  | IBox a _ => vbox_drop t a
  | IOwned a _ => owned_drop t a
  | _ =>
      match t, i with
      | TFixed f, IFixed v => drop_value f v
      | TFixed _, IFixedClone _ | TFixed _, IFixedCloneAt _ _ => ret tt
      | TArray f _, ISized _ ai => drop_ainit f ai
      | TNew t, INew i => drop_init t i
      | TRec _ _ _ fs, IRec is_ => drop_flds fs is_
      | _, _ => undef UType
      end
  end
with drop_flds (fs : flds) (is_ : list init) {struct fs} : M world unit :=
  match fs, is_ with
  | FNil, [] => ret tt
  | FNormal _ f r, IFixed v :: is' | FLength _ f r, IFixed v :: is' =>
      drop_value f v ;;; drop_flds r is'
  | FVar t r, i :: is' => drop_init t i ;;; drop_flds r is'
  | FArr f _ r, IArrF ai :: is' => drop_ainit f ai ;;; drop_flds r is'
  | _, _ => undef UType
  end.

(** Dropping the not yet consumed components of a tuple Init after [let Init(a, b, ..) = self;]:
    local variables are dropped in reverse order of declaration (tuple.rs:206). *)
Fixpoint drop_flds_rev (fs : flds) (is_ : list init) {struct fs} : M world unit :=
  match fs, is_ with
  | FNil, [] => ret tt
  | FNormal _ f r, IFixed v :: is' | FLength _ f r, IFixed v :: is' =>
      drop_flds_rev r is' ;;; drop_value f v
  | FVar t r, i :: is' => drop_flds_rev r is' ;;; drop_init t i
  | FArr f _ r, IArrF ai :: is' => drop_flds_rev r is' ;;; drop_ainit f ai
  | _, _ => undef UType
  end.

(** ** ArrayInitializer::initialize *)

(** The shared loop: for each slot, produce the value and write it.
    [pre i] is the event of producing item i. *)
Definition fill_loop (f : fty) (p : N) (pre : N -> list event) (g : N -> option (list cell))
    (i : N) : M world unit :=
  for_each emit (pre i) ;;;
  match g i with
  | None => panic
  | Some v => store (p + i * f_size f) (f_align f) v
  end.

(** array_init.rs:122-132 (FromIterPrefix), 159-165 (FillSequentially), 178-182 (FillWithDefault),
    209-216 (CopyFrom), 242-249 (CloneFrom), 275-282 (MoveFrom); [p] is the slice's address, [n]
    its length. *)
Definition ainit_run (f : fty) (ai : ainit) (p n : N) : M world unit :=
  match ai with
  | AFillSeq g => for_each (fill_loop f p (fun i => [ECall i]) g) (upto n)
  | AFillDefault g => for_each (fill_loop f p (fun i => [ECall i]) g) (upto n)
  | AIterPrefix g => for_each (fill_loop f p (fun _ => [ENext]) g) (upto n)
  | ACopyFrom vs =>
      if len vs =? n then store p (f_align f) (concat vs) else panic
  | ACloneFrom vs =>
      if len vs =? n then
        for_each (fill_loop f p (fun i => [EClone (nth (N.to_nat i) vs [])])
                    (fun i => f_clone f (nth (N.to_nat i) vs []))) (upto n)
      else panic
  | ACopyAt a k _ =>
      if k =? n then copy_nonoverlapping a p (n * f_size f) (f_align f) else panic
  | ACloneAt a k _ =>
      if k =? n then
        for_each (fun i => v <- load (a + i * f_size f) (f_size f) (f_align f) ;;
                           fill_loop f p (fun _ => [EClone v]) (fun _ => f_clone f v) i) (upto n)
      else panic
  | AMoveFrom vs =>
      if len vs =? n then
        for_each (fill_loop f p (fun _ => []) (fun i => Some (nth (N.to_nat i) vs []))) (upto n)
      else for_each (drop_value f) vs ;;; panic
  | AUser ws fin =>
      for_each (fun '(i, v) => if i <? n then store (p + i * f_size f) (f_align f) v else panic) (ws n) ;;;
      if fin n then ret tt else panic
  end.

(** macro_support.rs:74-87 [init_array]; the slice reference is created first. *)
Definition init_array (f : fty) (ai : ainit) (a off n : N) : M world unit :=
  let p := wrapping_add a off in
  check_ref p (n * f_size f) (f_align f) ;;; ainit_run f ai p n.

(** ** Initializer::initialize *)

(** core::ptr::write of a struct header: the listed fields at their offsets; every other byte of
    the header is padding, which a typed copy leaves uninitialised. *)
Definition header_bytes (hs : N) (vals : list (N * list cell)) : list cell :=
  fold_left (fun acc '(off, bs) =>
               map (fun x => if (off <=? x) && (x <? off + len bs)
                             then nth (N.to_nat (x - off)) bs Un
                             else nth (N.to_nat x) acc Un) (upto hs))
    vals (repeat Un (N.to_nat hs)).

(** Dropping already evaluated header field values when the struct expression unwinds
    (latest first). *)
Definition drop_temps (temps : list (fty * list cell)) : M world unit :=
  for_each (fun '(f, v) => drop_value f v) temps.
(** Cleanup of [initialize] of a tuple / struct when the initialization of one field panics:
    evaluated operands, then the remaining fields of [self]. *)
Definition unwind_rec (kd : reckind) (temps : list (fty * list cell)) (r : flds) (is_ : list init)
    : M world unit :=
  match kd with
  | KTuple => drop_flds_rev r is_
  | KStruct => drop_temps temps ;;; drop_flds r is_
  end.

(** Initializer::initialize(self, dst, layout). lib.rs:717,764 (FixedLen, FixedLenCloner),
    array.rs:368-382 (SizedInit), newtype.rs:217,307 (newtypes), tuple.rs:202-219 (tuple),
    varlen_macro/src/lib.rs:416-425 with the init_field snippets 808, 844, 908, 993
    (struct), lib.rs:537-544 (VCopier), vbox.rs:180-193 (VBox), owned.rs:215-222 (Owned);
    macro_support.rs:138-147 [init_field]. [init_fields] evaluates the field expressions in
    declaration order and returns the header field values. *)
Fixpoint initialize (t : vty) (i : init) (dst : N) (l : lay) {struct t} : M world unit :=
  match i with
  | ICopy a _ => copy_nonoverlapping a dst (lay_size l) 1
  | IBox a _ =>
      copy_nonoverlapping a dst (lay_size l) 1 ;;; dealloc a (lay_size l) (valign t)
  | IOwned a _ =>
      (* copy_nonoverlapping on *mut T pointers: the count layout.size() is in units of T *)
      copy_nonoverlapping a dst (lay_size l * head_size t) (head_align t)
  | _ =>
      match t, i, l with
      | TFixed f, IFixed v, LyFix _ => store dst (f_align f) v
      | TFixed f, IFixedClone v, LyFix _ =>
          emit (EClone v) ;;;
          match f_clone f v with
          | None => panic
          | Some v' => store dst (f_align f) v'
          end
      | TFixed f, IFixedCloneAt a _, LyFix _ =>
          v <- load a (f_size f) (f_align f) ;;
          emit (EClone v) ;;;
          match f_clone f v with
          | None => panic
          | Some v' => store dst (f_align f) v'
          end
      | TArray f k, ISized n ai, LyArr off n' _ =>
          init_array f ai dst off n' ;;;
          store dst (len_size k) (enc_le (N.to_nat (len_size k)) n)
      | TNew t, INew i, l => initialize t i dst l
      | TRec kd hs ha fs, IRec is_, LyRec _ es =>
          vals <- init_fields kd fs is_ es dst [] ;;
          store dst ha (header_bytes hs vals)
      | _, _, _ => undef UType
      end
  end
with init_fields (kd : reckind) (fs : flds) (is_ : list init) (es : list (N * lay)) (dst : N)
    (temps : list (fty * list cell)) {struct fs} : M world (list (N * list cell)) :=
  match fs, is_, es with
  | FNil, [], [] => ret []
  | FNormal off f r, IFixed v :: is', es | FLength off f r, IFixed v :: is', es =>
      vals <- init_fields kd r is' es dst ((f, v) :: temps) ;; ret ((off, v) :: vals)
  | FVar t r, i :: is', (off, l) :: es' =>
      on_unwind (initialize t i (wrapping_add dst off) l) (unwind_rec kd temps r is') ;;;
      init_fields kd r is' es' dst temps
  | FArr f _ r, IArrF ai :: is', (off, LyLen n) :: es' =>
      on_unwind (init_array f ai dst off n) (unwind_rec kd temps r is') ;;;
      init_fields kd r is' es' dst temps
  | _, _, _ => undef UType
  end.
