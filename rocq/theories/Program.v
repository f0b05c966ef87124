(** Program.v - whole programs: client code that holds any number of VBox, Owned and Seq values and
    uses them through the safe API. Everything the crate does is the code modelled in the previous
    files; this file only strings calls together the way a client program does. *)
From Verif Require Export SeqModel.

(** References to variable-length fields, nested to any depth: refs().x / muts().x of a tuple
    (tuple.rs:132-151) and of a struct (varlen_macro/src/lib.rs:429-452, ref_field snippet 911),
    inner() / inner_mut() of a newtype (newtype.rs:225-233); [ref_field] / [mut_field] are
    macro_support.rs:157-164. [PHere] is the object itself. The result is the type of the object and
    its address. *)
Fixpoint subobject (t : vty) (a : N) (p : path) {struct t} : M world (vty * N) :=
  match p with
  | PHere => ret (t, a)
  | _ =>
      match t, p with
      | TNew t, PInner p => subobject t a p
      | TRec kd hs ha fs, PFld j p =>
          l <- calc_layout (TRec kd hs ha fs) a ;;
          match l with LyRec _ es => subobject_fld fs a es j p | _ => undef UType end
      | _, _ => undef UType
      end
  end
with subobject_fld (fs : flds) (a : N) (es : list (N * lay)) (j : nat) (p : path) {struct fs}
    : M world (vty * N) :=
  match fs, j, es with
  | FNormal _ _ r, S j, es | FLength _ _ r, S j, es => subobject_fld r a es j p
  | FVar t r, O, (off, _) :: _ =>
      check_ref (wrapping_add a off) (head_size t) (head_align t) ;;;
      subobject t (wrapping_add a off) p
  | FVar _ r, S j, _ :: es' | FArr _ _ r, S j, _ :: es' => subobject_fld r a es' j p
  | _, _, _ => undef UType
  end.

(** The owning values a program holds: a VBox (its pointer), an Owned (its pointer), a Seq.
    [SDead]: moved out or dropped. *)
Inductive slot :=
| SBox (t : vty) (a : N)
| SOwn (t : vty) (a : N)
| SSeq (t : vty) (chk : bool) (s : sq)
| SDead.

(** An object a program can refer to: (part of) the contents of box / owned value number [h], or
    (part of) the [k]-th element of sequence number [h], or (part of) the element of sequence number
    [h] at offset [o], looked up with from_offset(_mut) or, if [u], from_offset_unchecked(_mut). *)
Inductive place :=
| PlObj (h : nat) (p : path)
| PlElem (h k : nat) (p : path)
| PlOff (h : nat) (u : bool) (o : N) (p : path).

(** Initializer expressions. Boxes are moved into the initializer; vcopy() and vclone() borrow. *)
Inductive pinit :=
| PFixed (v : list cell)                 (* FixedLen(v), or the value of a header field *)
| PFixedClone (v : list cell)            (* FixedLen(v).vclone() of a FixedLen of the client *)
| PSized (n : N) (ai : ainit)            (* SizedInit(n, ai) *)
| PArrF (ai : ainit)                     (* the entry of a #[varlen_array] field *)
(* SizedInit(n, CopyFrom(s)), SizedInit(n, CloneFrom(s)) if [cl], for the slice s of [k] elements from
   element [lo] of the Array [pl] or of its #[varlen_array] field [j] ([array_slice]) *)
| PSizedAt (n : N) (cl : bool) (pl : place) (j : option nat) (lo k : N)
(* the entry CopyFrom(s) or CloneFrom(s) of a #[varlen_array] field *)
| PArrAt (cl : bool) (pl : place) (j : option nat) (lo k : N)
| PBox (h : nat)                         (* the VBox number h, moved *)
| PCopy (pl : place)                     (* place.vcopy() *)
| PClone (pl : place)                    (* place.vclone() *)
| PWrap (p : pinit)                      (* newtype Init(p) *)
| PFields (ps : list pinit).             (* tupN::Init(..), the Init struct of define_varlen *)

(** What client code does with the iterator that take_elems() returns and with the elements
    (Owned values) it has taken from it so far, which are numbered from 0. *)
Inductive tcmd :=
| TNext                                                (* held.extend(it.next()) *)
| TLen                                                 (* it.len() *)
| TRead (j : nat)                                      (* read the whole element held[j] *)
| TAssign (j : nat) (q : path) (new : list cell)       (* held[j].as_mut() ... = new *)
| TDrop (j : nat)                                      (* drop(held[j]) *)
| TForget (j : nat).                                   (* mem::forget(held[j]) *)

(** Operations. New values are appended at the end of the list of values. *)
Inductive op :=
| ONewBox (t : vty) (p : pinit)                        (* VBox::new(p) *)
| ONewOwned (t : vty) (p : pinit)                      (* Owned::new_in(p, bump) *)
| ONewSeq (t : vty) (chk : bool)                       (* Seq::new() *)
| OPush (h : nat) (p : pinit)                          (* h.push(p) *)
| ODrop (h : nat)                                      (* drop(h) *)
| OAssign (pl : place) (q : path) (new : list cell)    (* muts() ... = new *)
| OControllers (pl : place) (news : list (list cell))  (* try_set_layout_controllers *)
| ODrain (h : nat)                                     (* drop(h.take_elems()) *)
| ORead (pl : place)                                   (* read the whole object through refs() ... *)
| OReadSeq (h : nat)                                   (* iterate and read all elements *)
| OLookup (h : nat) (o : N)                            (* read *h.from_offset(o), checked mode *)
| OLen (h : nat)                                       (* h.len() *)
| OOffset (h : nat)                                    (* h.offset() *)
| OOffsetOf (h : nat) (pl : place)                     (* h.offset_of(pl) *)
| OOffsetValid (h : nat) (o : N)                       (* h.is_offset_valid(o), checked mode *)
| OCapacity (h : nat)                                  (* h.capacity_in_offsets() *)
| OReadFirst (h : nat) (m : N)                         (* iterate and read h.iter().limited_to(m) *)
| OForget (h : nat)                                    (* mem::forget(h) *)
(* let it = h.take_elems(); let held = vec![]; cmds; drop(held); drop(it) or, if [keep], forget(it) *)
| OTake (h : nat) (cmds : list tcmd) (keep : bool)
| OSwap (pl : place) (q q' : path)                     (* mem::swap of two leaves of muts() ..., slice::swap *)
| OSwap2 (pl : place) (q : path) (pl' : place) (q' : path)  (* mem::swap of leaves of two objects *)
| OSwapObj (pl pl' : place).                           (* mem::swap of two objects (Unpin types) *)
Inductive out :=
| OutUnit | OutBool (b : bool) | OutVal (v : vval) | OutVals (vs : list vval) | OutNum (n : N)
| OutList (l : list out).

Definition config : Type := world * list slot.
Fixpoint update {A} (l : list A) (i : nat) (x : A) : list A :=
  match l, i with
  | [], _ => []
  | _ :: r, O => x :: r
  | y :: r, S i => y :: update r i x
  end.
(** The values with the given numbers have been moved out. *)
Definition kill (sl : list slot) (hs : list nat) : list slot :=
  fold_left (fun sl h => update sl h SDead) hs sl.

(** Evaluating a place expression: Deref and as_mut of VBox / Owned (vbox.rs:84-86, 158-163; owned.rs:146-148, 207-211), or the
    k-th item of Seq::iter() / iter_mut(), then the field accessors. *)
Definition resolve (sl : list slot) (pl : place) : M world (vty * N) :=
  match pl with
  | PlObj h p =>
      match nth_error sl h with
      | Some (SBox t a) | Some (SOwn t a) =>
          check_ref a (head_size t) (head_align t) ;;; subobject t a p
      | _ => undef UType
      end
  | PlElem h k p =>
      match nth_error sl h with
      | Some (SSeq t _ s) =>
          l <- iter_collect t (S (N.to_nat (s_len s))) (seq_iter s) ;;
          match nth_error l k with Some a => subobject t a p | None => undef UType end
      | _ => undef UType
      end
  | PlOff h u o p =>
      match nth_error sl h with
      | Some (SSeq t chk s) =>
          a <- (if u then from_offset_unchecked t s o
                else if chk then from_offset t s o else undef UType) ;;
          subobject t a p
      | _ => undef UType
      end
  end.

(** The boxes an initializer expression moves, and the values it borrows. *)
Fixpoint moves (p : pinit) : list nat :=
  match p with
  | PBox h => [h]
  | PWrap p => moves p
  | PFields ps => concat (map moves ps)
  | _ => []
  end.
Definition place_handle (pl : place) : nat :=
  match pl with PlObj h _ => h | PlElem h _ _ => h | PlOff h _ _ _ => h end.
Fixpoint borrows (p : pinit) : list nat :=
  match p with
  | PCopy pl | PClone pl | PSizedAt _ _ pl _ _ _ | PArrAt _ pl _ _ _ => [place_handle pl]
  | PWrap p => borrows p
  | PFields ps => concat (map borrows ps)
  | _ => []
  end.

(** CopyFrom(s) / CloneFrom(s) for a slice of an object. *)
Definition slice_init (sl : list slot) (cl : bool) (pl : place) (j : option nat) (lo k : N) : M world ainit :=
  q <- resolve sl pl ;;
  s <- array_slice (fst q) (snd q) j ;;
  r <- sub_slice s lo k ;;
  ret (if cl then ACloneAt (fst r) (snd r) [] else ACopyAt (fst r) (snd r) []).
(** Evaluating an initializer expression. The ghost components of the initializer are arbitrary. *)
Fixpoint eval (sl : list slot) (p : pinit) : M world init :=
  match p with
  | PFixed v => ret (IFixed v)
  | PFixedClone v => ret (IFixedClone v)
  | PSized n ai => ret (ISized n ai)
  | PArrF ai => ret (IArrF ai)
  | PSizedAt n cl pl j lo k => ai <- slice_init sl cl pl j lo k ;; ret (ISized n ai)
  | PArrAt cl pl j lo k => ai <- slice_init sl cl pl j lo k ;; ret (IArrF ai)
  | PBox h =>
      match nth_error sl h with Some (SBox _ a) => ret (IBox a (VFix [])) | _ => undef UType end
  | PCopy pl => q <- resolve sl pl ;; ret (vcopy (snd q) (VFix []))
  | PClone pl => q <- resolve sl pl ;; vclone (fst q) (snd q)
  | PWrap p => i <- eval sl p ;; ret (INew i)
  | PFields ps =>
      is_ <- (fix go (ps : list pinit) : M world (list init) :=
                match ps with
                | [] => ret []
                | p :: r => i <- eval sl p ;; is_ <- go r ;; ret (i :: is_)
                end) ps ;;
      ret (IRec is_)
  end.

(** Run an operation of the crate inside a program; [k] and [kp] give the values held afterwards. *)
Definition call {A} (m : M world A) (k : A -> out * list slot) (kp : list slot) : world -> res config out :=
  fun w => match m w with
           | Ok a w' => Ok (fst (k a)) (w', snd (k a))
           | Panic w' => Panic (w', kp)
           | UB u => UB u
           end.
Definition call_seq {A} (m : SM A) (s : sq) (k : A -> sq -> out * list slot) (kp : sq -> list slot)
    : world -> res config out :=
  fun w => match m (w, s) with
           | Ok a (w', s') => Ok (fst (k a s')) (w', snd (k a s'))
           | Panic (w', s') => Panic (w', kp s')
           | UB u => UB u
           end.

(** The client code of [OTake]: its state is the iterator and the elements held (None: dropped or
    forgotten). Deref and as_mut of Owned: owned.rs:146-148, 207-211; OwnedElems: seq.rs:1298-1340. *)
Definition tstate : Type := iter * list (option N).
Definition lft_t {A} (m : M world A) : M (world * tstate) A :=
  fun '(w, s) => match m w with
                 | Ok a w' => Ok a (w', s) | Panic w' => Panic (w', s) | UB u => UB u
                 end.
Definition held_at (j : nat) : M (world * tstate) N :=
  fun '(w, s) => match nth_error (snd s) j with Some (Some a) => Ok a (w, s) | _ => UB UType end.
Definition let_go (j : nat) : M (world * tstate) unit :=
  fun '(w, (it, l)) => Ok tt (w, (it, update l j None)).
Definition take_cmd (t : vty) (c : tcmd) : M (world * tstate) out :=
  match c with
  | TNext => fun '(w, (it, l)) =>
      match iter_next t it w with
      | Ok (None, it') w' => Ok (OutBool false) (w', (it', l))
      | Ok (Some a, it') w' => Ok (OutBool true) (w', (it', l ++ [Some a]))
      | Panic w' => Panic (w', (it, l))
      | UB u => UB u
      end
  | TLen => fun '(w, (it, l)) => Ok (OutNum (iter_len it)) (w, (it, l))
  | TRead j =>
      a <- held_at j ;;
      lft_t (check_ref a (head_size t) (head_align t)) ;;;
      v <- lft_t (view t a) ;; ret (OutVal v)
  | TAssign j q new =>
      a <- held_at j ;;
      lft_t (check_ref a (head_size t) (head_align t)) ;;;
      lft_t (assign t a q new) ;;; ret OutUnit
  | TDrop j => a <- held_at j ;; let_go j ;;; lft_t (owned_drop t a) ;;; ret OutUnit
  | TForget j => let_go j ;;; ret OutUnit
  end.
(** The locals are dropped, also when a command panics (then the iterator is not forgotten). *)
Definition take_end (t : vty) (keep : bool) (s : tstate) : M world unit :=
  for_each (fun o => match o with Some a => owned_drop t a | None => ret tt end) (snd s) ;;;
  (if keep then ret tt else owned_elems_drop t (fst s)).
Definition take_run (t : vty) (it : iter) (cmds : list tcmd) (keep : bool) : M world (list out) := fun w =>
  match mapM (take_cmd t) cmds (w, (it, [])) with
  | Ok outs (w', s) => (take_end t keep s ;;; ret outs) w'
  | Panic (w', s) => (take_end t false s ;;; panic) w'
  | UB u => UB u
  end.

(** core::mem::swap of two values of [n] bytes. *)
Definition mem_swap (a b n al : N) : M world unit :=
  x <- load a n al ;; y <- load b n al ;; store a al y ;;; store b al x.
(** mem::swap(&mut x, &mut y) for two leaves reached through muts(), mut_slice (array.rs:232-242),
    FixedLen.0. For an array it is slice::swap. Simplification: the two references are evaluated one
    after the other also if they come from one call of muts(). *)
Definition swap_leaves (t : vty) (a : N) (q : path) (t' : vty) (a' : N) (q' : path) : M world unit :=
  x <- locate t a q ;; y <- locate t' a' q' ;;
  mem_swap (fst x) (fst y) (f_size (snd x)) (f_align (snd x)).
(** Which of the types are Unpin, so that safe code gets from Pin<&mut T> to &mut T (Pin::get_mut) and may
    then swap or replace whole objects. Unpin is an auto trait: a struct is Unpin if and only if all its
    fields are. FieldMarker and ArrayMarker contain PhantomPinned (marker.rs:37, 90); Array has an
    ArrayMarker (array.rs:101-104), tuples have FieldMarkers (tuple.rs:126), the structs of
    define_varlen have them for their varlen fields (varlen_macro/src/lib.rs:331-336); a newtype and
    FixedLen contain their inner type (newtype.rs:186, lib.rs:685). [U] says which fixed-length types are. *)
Fixpoint unpin_flds (U : fty -> bool) (fs : flds) : bool :=
  match fs with
  | FNil => true
  | FNormal _ f r | FLength _ f r => U f && unpin_flds U r
  | FVar _ _ | FArr _ _ _ => false
  end.
Fixpoint unpin (U : fty -> bool) (t : vty) : bool :=
  match t with
  | TFixed f => U f
  | TArray _ _ => false
  | TNew t => unpin U t
  | TRec _ _ _ fs => unpin_flds U fs
  end.

(** One operation of a program. A panic is caught by the program (catch_unwind), which goes on with
    the values it still holds. *)
Definition exec (o : op) : config -> res config out := fun '(w, sl) =>
  match o with
  | ONewBox t p =>
      call (i <- eval sl p ;; vbox_new t i)
        (fun a => (OutUnit, kill sl (moves p) ++ [SBox t a])) (kill sl (moves p)) w
  | ONewOwned t p =>
      call (i <- eval sl p ;; owned_new_in t i)
        (fun a => (OutUnit, kill sl (moves p) ++ [SOwn t a])) (kill sl (moves p)) w
  | ONewSeq t chk => Ok OutUnit (w, sl ++ [SSeq t chk (seq_new t)])
  | OPush h p =>
      match nth_error sl h with
      | Some (SSeq t chk s) =>
          call_seq (i <- lft (eval sl p) ;; seq_push t chk i) s
            (fun _ s' => (OutUnit, update (kill sl (moves p)) h (SSeq t chk s')))
            (fun s' => update (kill sl (moves p)) h (SSeq t chk s')) w
      | _ => UB UType
      end
  | ODrop h =>
      match nth_error sl h with
      | Some (SBox t a) => call (vbox_drop t a) (fun _ => (OutUnit, kill sl [h])) (kill sl [h]) w
      | Some (SOwn t a) => call (owned_drop t a) (fun _ => (OutUnit, kill sl [h])) (kill sl [h]) w
      | Some (SSeq t chk s) =>
          call_seq (seq_drop t chk) s (fun _ _ => (OutUnit, kill sl [h])) (fun _ => kill sl [h]) w
      | _ => UB UType
      end
  | OAssign pl q new =>
      call (r <- resolve sl pl ;; assign (fst r) (snd r) q new) (fun _ => (OutUnit, sl)) sl w
  | OControllers pl news =>
      call (r <- resolve sl pl ;;
            match fst r with
            | TRec KStruct _ _ fs => try_set_layout_controllers fs (snd r) (fun _ => false) news
            | _ => undef UType
            end) (fun b => (OutBool b, sl)) sl w
  | ODrain h =>
      match nth_error sl h with
      | Some (SSeq t chk s) =>
          call_seq (it <- take_elems t chk ;; lft (owned_elems_drop t it)) s
            (fun _ s' => (OutUnit, update sl h (SSeq t chk s')))
            (fun s' => update sl h (SSeq t chk s')) w
      | _ => UB UType
      end
  | ORead pl => call (r <- resolve sl pl ;; view (fst r) (snd r)) (fun v => (OutVal v, sl)) sl w
  | OReadSeq h =>
      match nth_error sl h with
      | Some (SSeq t chk s) => call (seq_contents t s) (fun vs => (OutVals vs, sl)) sl w
      | _ => UB UType
      end
  | OLookup h x =>
      match nth_error sl h with
      | Some (SSeq t true s) =>
          call (a <- from_offset t s x ;; view t a) (fun v => (OutVal v, sl)) sl w
      | _ => UB UType
      end
  | OLen h =>
      match nth_error sl h with
      | Some (SSeq _ _ s) => Ok (OutNum (seq_len s)) (w, sl)
      | _ => UB UType
      end
  | OOffset h =>
      match nth_error sl h with
      | Some (SSeq _ _ s) => Ok (OutNum (seq_offset s)) (w, sl)
      | _ => UB UType
      end
  | OOffsetOf h pl =>
      match nth_error sl h with
      | Some (SSeq t _ s) =>
          call (r <- resolve sl pl ;; offset_of t s (snd r)) (fun x => (OutNum x, sl)) sl w
      | _ => UB UType
      end
  | OOffsetValid h x =>
      match nth_error sl h with
      | Some (SSeq t true s) => call (is_offset_valid t s x) (fun b => (OutBool b, sl)) sl w
      | _ => UB UType
      end
  | OCapacity h =>
      match nth_error sl h with
      | Some (SSeq _ _ s) => Ok (OutNum (seq_capacity s)) (w, sl)
      | _ => UB UType
      end
  | OReadFirst h m =>
      match nth_error sl h with
      | Some (SSeq t _ s) =>
          let it := limited_to (seq_iter s) m in
          call (l <- iter_collect t (S (N.to_nat (it_len it))) it ;; mapM (view t) l)
            (fun vs => (OutVals vs, sl)) sl w
      | _ => UB UType
      end
  | OForget h =>
      match nth_error sl h with
      | Some SDead | None => UB UType
      | Some _ => Ok OutUnit (w, kill sl [h])
      end
  | OTake h cmds keep =>
      match nth_error sl h with
      | Some (SSeq t chk s) =>
          call_seq (it <- take_elems t chk ;; lft (take_run t it cmds keep)) s
            (fun l s' => (OutList l, update sl h (SSeq t chk s')))
            (fun s' => update sl h (SSeq t chk s')) w
      | _ => UB UType
      end
  | OSwap pl q q' =>
      call (r <- resolve sl pl ;; swap_leaves (fst r) (snd r) q (fst r) (snd r) q') (fun _ => (OutUnit, sl)) sl w
  | OSwap2 pl q pl' q' =>
      call (r <- resolve sl pl ;; r' <- resolve sl pl' ;; swap_leaves (fst r) (snd r) q (fst r') (snd r') q')
        (fun _ => (OutUnit, sl)) sl w
  | OSwapObj pl pl' =>
      call (r <- resolve sl pl ;; r' <- resolve sl pl' ;;
            mem_swap (snd r) (snd r') (head_size (fst r)) (head_align (fst r)))
        (fun _ => (OutUnit, sl)) sl w
  end.

(** The values an operation mentions (moves, borrows or changes). *)
Definition mentions (o : op) : list nat :=
  match o with
  | ONewBox _ p | ONewOwned _ p => moves p ++ borrows p
  | ONewSeq _ _ => []
  | OPush h p => h :: moves p ++ borrows p
  | ODrop h | ODrain h | OReadSeq h | OLookup h _ | OLen h | OOffset h | OOffsetValid h _ | OCapacity h
  | OReadFirst h _ | OForget h | OTake h _ _ => [h]
  | OAssign pl _ _ | OControllers pl _ | ORead pl | OSwap pl _ _ => [place_handle pl]
  | OOffsetOf h pl => [h; place_handle pl]
  | OSwap2 pl _ pl' _ | OSwapObj pl pl' => [place_handle pl; place_handle pl']
  end.
