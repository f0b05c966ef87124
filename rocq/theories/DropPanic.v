(** DropPanic.v - destructors that panic. The functions of Init.v, Access.v, SeqModel.v and Program.v
    that run destructors, again, with destructors that may panic: [dp v] says that the destructor of
    the value [v] panics (after it has done its work, so the value counts as destroyed). Rust drops
    the rest of a slice when the destructor of one element panics, and aborts the process when a
    destructor panics while another panic is unwinding. *)
From Verif Require Export Program.

(** Outcomes: as [res] (Machine.v), or the process has been aborted. *)
Inductive dres (S A : Type) :=
| DOk (a : A) (s : S)
| DPanic (s : S)
| DAbort
| DUB (u : ub).
Arguments DOk {S A}. Arguments DPanic {S A}. Arguments DAbort {S A}. Arguments DUB {S A}.
Definition D (S A : Type) := S -> dres S A.
Definition dret {S A} (a : A) : D S A := fun s => DOk a s.
Definition dlift {S A} (m : M S A) : D S A := fun s =>
  match m s with Ok a s' => DOk a s' | Panic s' => DPanic s' | UB u => DUB u end.
Definition dbind {S A B} (m : D S A) (k : A -> D S B) : D S B := fun s =>
  match m s with DOk a s' => k a s' | DPanic s' => DPanic s' | DAbort => DAbort | DUB u => DUB u end.
(** Unwinding: run [c] after a panic of [m]; a second panic aborts. *)
Definition dunwind {S A} (m : D S A) (c : D S unit) : D S A := fun s =>
  match m s with
  | DPanic s' => match c s' with DOk _ s'' => DPanic s'' | DPanic _ => DAbort | DAbort => DAbort | DUB u => DUB u end
  | r => r
  end.
Notation "x <~ m ;; k" := (dbind m (fun x => k)) (at level 61, m at next level, right associativity).
Notation "m1 ~;; m2" := (dbind m1 (fun _ => m2)) (at level 61, right associativity).

(** The destructor of the value with these bytes. *)
Definition run_destructor (dp : list cell -> bool) (bs : list cell) : D world unit :=
  dlift (emit (EDrop bs)) ~;; if dp bs then (fun w => DPanic w) else dret tt.
(** core::ptr::drop_in_place of one value (compare [drop_leaf], Init.v). *)
Definition drop_leaf_p (dp : list cell -> bool) (f : fty) (a : N) : D world unit :=
  if f_drop f then bs <~ dlift (load a (f_size f) (f_align f)) ;; run_destructor dp bs else dret tt.
(** core::ptr::drop_in_place of a slice: elements in index order; the drop glue generated by rustc
    goes on with the remaining elements when one panics. *)
Fixpoint drop_seq_p (dp : list cell -> bool) (f : fty) (addrs : list N) : D world unit :=
  match addrs with
  | [] => dret tt
  | a :: r => dunwind (drop_leaf_p dp f a) (drop_seq_p dp f r) ~;; drop_seq_p dp f r
  end.
(** macro_support.rs:56-59 [drop_array] (compare Init.v). *)
Definition drop_array_p (dp : list cell -> bool) (f : fty) (a off n : N) : D world unit :=
  let p := wrapping_add a off in
  dlift (check_ref p (n * f_size f) (f_align f)) ~;;
  drop_seq_p dp f (map (fun i => p + i * f_size f) (upto n)).

(** VarLen::vdrop (compare [vdrop], Init.v, for the lines in /repo). The fields of a tuple or struct
    are dropped by one statement after the other, so a panic skips the fields after it; there is no
    unwinding code, since fields are reached through raw pointers. *)
Fixpoint vdrop_p (dp : list cell -> bool) (t : vty) (a : N) (l : lay) {struct t} : D world unit :=
  match t, l with
  | TFixed f, LyFix _ => drop_leaf_p dp f a
  | TArray f _, LyArr off n _ => drop_array_p dp f a off n
  | TNew t, l => if needs_vdrop t then vdrop_p dp t a l else dret tt
  | TRec kd _ _ fs, LyRec _ es =>
      match kd with
      | KTuple => if fneeds fs then vdrop_flds_p dp fs a es else dret tt
      | KStruct => vdrop_flds_p dp fs a es
      end
  | _, _ => fun _ => DUB UType
  end
with vdrop_flds_p (dp : list cell -> bool) (fs : flds) (a : N) (es : list (N * lay)) {struct fs}
    : D world unit :=
  match fs, es with
  | FNil, _ => dret tt
  | FNormal off f r, es | FLength off f r, es =>
      drop_leaf_p dp f (wrapping_add a off) ~;; vdrop_flds_p dp r a es
  | FVar t r, (off, l) :: es' =>
      dlift (check_ref (wrapping_add a off) (head_size t) (head_align t)) ~;;
      vdrop_p dp t (wrapping_add a off) l ~;; vdrop_flds_p dp r a es'
  | FArr f _ r, (off, LyLen n) :: es' => drop_array_p dp f a off n ~;; vdrop_flds_p dp r a es'
  | _, _ => fun _ => DUB UType
  end.

(** Drop for VBox, vbox.rs:147-155: a panic of [vdrop] leaves before the dealloc. *)
Definition vbox_drop_p (dp : list cell -> bool) (t : vty) (a : N) : D world unit :=
  dlift (check_ref a (head_size t) (head_align t)) ~;;
  l <~ dlift (calc_layout t a) ;;
  vdrop_p dp t a l ~;;
  dlift (dealloc a (lay_size l) (valign t)).
(** Drop for Owned, owned.rs:197-205. *)
Definition owned_drop_p (dp : list cell -> bool) (t : vty) (a : N) : D world unit :=
  dlift (check_ref a (head_size t) (head_align t)) ~;;
  l <~ dlift (calc_layout t a) ;;
  vdrop_p dp t a l.

(** Drop for OwnedElems, seq.rs:1332-1340: a panic leaves the loop; OwnedElems has no other drop
    glue. *)
Fixpoint drop_elems_loop_p (dp : list cell -> bool) (t : vty) (n : nat) (it : iter) : D world unit :=
  match n with
  | O => dret tt
  | S n =>
      r <~ dlift (iter_next t it) ;;
      match fst r with
      | None => dret tt
      | Some a => owned_drop_p dp t a ~;; drop_elems_loop_p dp t n (snd r)
      end
  end.
Definition owned_elems_drop_p (dp : list cell -> bool) (t : vty) (it : iter) : D world unit :=
  if core_needs_drop t || needs_vdrop t
  then drop_elems_loop_p dp t (S (N.to_nat (it_len it))) it else dret tt.
Definition dlft {A} (m : D world A) : D (world * sq) A := fun '(w, s) =>
  match m w with DOk a w' => DOk a (w', s) | DPanic w' => DPanic (w', s) | DAbort => DAbort | DUB u => DUB u end.
(** drop(seq.take_elems()), seq.rs:904-917. *)
Definition drain_p (dp : list cell -> bool) (t : vty) (chk : bool) : D (world * sq) unit :=
  it <~ dlift (take_elems t chk) ;; dlft (owned_elems_drop_p dp t it).
(** Drop for Seq, seq.rs:1014-1023: a panic leaves before the dealloc. *)
Definition seq_drop_p (dp : list cell -> bool) (t : vty) (chk : bool) : D (world * sq) unit :=
  s <~ dlift get_sq ;;
  if s_cap s =? 0 then dret tt else
  drain_p dp t chk ~;;
  s <~ dlift get_sq ;;
  size <~ dlift (pmul (s_cap s) (valign t)) ;;
  full <~ dlift (lft (extended_size chk size (valign t))) ;;
  dlift (lft (dealloc (s_ptr s) full (valign t))).

(** [*leaf = new] (compare [assign], Access.v): when the destructor of the old value panics, the new
    value is still written before the panic goes on. *)
Definition assign_p (dp : list cell -> bool) (t : vty) (a : N) (p : path) (new : list cell) : D world unit :=
  q <~ dlift (locate t a p) ;;
  dunwind (drop_leaf_p dp (snd q) (fst q)) (dlift (store (fst q) (f_align (snd q)) new)) ~;;
  dlift (store (fst q) (f_align (snd q)) new).

(** Dropping values held in local variables or in the fields of a struct, first to last: when the
    destructor of one panics, the others are still dropped. *)
Definition drop_value_p (dp : list cell -> bool) (f : fty) (v : list cell) : D world unit :=
  if f_drop f then run_destructor dp v else dret tt.
Fixpoint drop_values_p (dp : list cell -> bool) (l : list (fty * list cell)) : D world unit :=
  match l with
  | [] => dret tt
  | (f, v) :: r => dunwind (drop_value_p dp f v) (drop_values_p dp r) ~;; drop_values_p dp r
  end.
(** [self_mut.x = layout_controllers.x;] for each controller, varlen_macro/src/lib.rs:473-475 (compare
    [set_ctrls], Access.v): if a destructor panics, its new value is still stored, and the new
    controllers not yet assigned are dropped. *)
Fixpoint set_ctrls_p (dp : list cell -> bool) (a : N) (cf : list (N * fty)) (news : list (list cell)) : D world unit :=
  match cf, news with
  | [], [] => dret tt
  | (off, f) :: cf', v :: news' =>
      old <~ dlift (load (wrapping_add a off) (f_size f) (f_align f)) ;;
      dunwind
        (dunwind (drop_value_p dp f old) (dlift (store (wrapping_add a off) (f_align f) v)) ~;;
         dlift (store (wrapping_add a off) (f_align f) v))
        (drop_values_p dp (combine (map snd cf') news')) ~;;
      set_ctrls_p dp a cf' news'
  | _, _ => fun _ => DUB UType
  end.
(** varlen_macro/src/lib.rs:454-482 (compare [try_set_layout_controllers], Access.v). The argument is
    dropped after a length expression panics and when Err is returned. *)
Definition try_set_p (dp : list cell -> bool) (fs : flds) (a : N) (news : list (list cell)) : D world bool :=
  before <~ dlift (load_ctrls fs a) ;;
  valid <~ dunwind
    (dlift (mapM (fun lf : list (list cell) -> N => x <- len_call (lf before) ;; y <- len_call (lf news) ;; ret (x =? y)) (len_fns fs)))
    (drop_values_p dp (combine (map snd (ctrl_fields fs)) news)) ;;
  if forallb (fun b => b) valid
  then set_ctrls_p dp a (ctrl_fields fs) news ~;; dret true
  else drop_values_p dp (combine (map snd (ctrl_fields fs)) news) ~;; dret false.

(** The client code of [OTake] (compare [take_cmd], [take_end], [take_run], Program.v). An element that
    is dropped has been moved out before its destructor runs. The elements held are in a Vec: when one
    panics while the Vec is dropped, the others are still dropped. Then the iterator is dropped, also
    if it was to be forgotten. *)
Fixpoint dmapM {S A B} (f : A -> D S B) (l : list A) : D S (list B) :=
  match l with
  | [] => dret []
  | x :: r => y <~ f x ;; ys <~ dmapM f r ;; dret (y :: ys)
  end.
Definition dlft_t {A} (m : D world A) : D (world * tstate) A := fun '(w, s) =>
  match m w with DOk a w' => DOk a (w', s) | DPanic w' => DPanic (w', s) | DAbort => DAbort | DUB u => DUB u end.
Definition take_cmd_p (dp : list cell -> bool) (t : vty) (c : tcmd) : D (world * tstate) out :=
  match c with
  | TAssign j q new =>
      a <~ dlift (held_at j) ;;
      dlift (lft_t (check_ref a (head_size t) (head_align t))) ~;;
      dlft_t (assign_p dp t a q new) ~;; dret OutUnit
  | TDrop j =>
      a <~ dlift (held_at j) ;; dlift (let_go j) ~;; dlft_t (owned_drop_p dp t a) ~;; dret OutUnit
  | TNext | TLen | TRead _ | TForget _ => dlift (take_cmd t c)
  end.
Fixpoint drop_held_p (dp : list cell -> bool) (t : vty) (l : list (option N)) : D world unit :=
  match l with
  | [] => dret tt
  | None :: r => drop_held_p dp t r
  | Some a :: r => dunwind (owned_drop_p dp t a) (drop_held_p dp t r) ~;; drop_held_p dp t r
  end.
Definition take_end_p (dp : list cell -> bool) (t : vty) (keep : bool) (s : tstate) : D world unit :=
  dunwind (drop_held_p dp t (snd s)) (owned_elems_drop_p dp t (fst s)) ~;;
  if keep then dret tt else owned_elems_drop_p dp t (fst s).
Definition take_run_p (dp : list cell -> bool) (t : vty) (it : iter) (cmds : list tcmd) (keep : bool)
    : D world (list out) := fun w =>
  match dmapM (take_cmd_p dp t) cmds (w, (it, [])) with
  | DOk outs (w', s) => (take_end_p dp t keep s ~;; dret outs) w'
  | DPanic (w', s) => dunwind (fun w => DPanic w) (take_end_p dp t false s) w'
  | DAbort => DAbort
  | DUB u => DUB u
  end.

(** ** Programs *)

Definition call_p {A} (m : D world A) (k : A -> out * list slot) (kp : list slot) : world -> dres config out :=
  fun w => match m w with
           | DOk a w' => DOk (fst (k a)) (w', snd (k a))
           | DPanic w' => DPanic (w', kp)
           | DAbort => DAbort
           | DUB u => DUB u
           end.
Definition call_seq_p {A} (m : D (world * sq) A) (s : sq) (k : A -> sq -> out * list slot) (kp : sq -> list slot)
    : world -> dres config out :=
  fun w => match m (w, s) with
           | DOk a (w', s') => DOk (fst (k a s')) (w', snd (k a s'))
           | DPanic (w', s') => DPanic (w', kp s')
           | DAbort => DAbort
           | DUB u => DUB u
           end.
Fixpoint destroyed (es : list event) : list (list cell) :=
  match es with
  | [] => []
  | EDrop v :: r => v :: destroyed r
  | _ :: r => destroyed r
  end.
(** One operation of a program (compare [exec], Program.v). Operations that construct objects run
    destructors only while unwinding from a panic, so that a panicking destructor aborts; the other
    operations that are not listed run no destructors. *)
Definition exec_p (dp : list cell -> bool) (o : op) : config -> dres config out := fun '(w, sl) =>
  match o with
  | ODrop h =>
      match nth_error sl h with
      | Some (SBox t a) => call_p (vbox_drop_p dp t a) (fun _ => (OutUnit, kill sl [h])) (kill sl [h]) w
      | Some (SOwn t a) => call_p (owned_drop_p dp t a) (fun _ => (OutUnit, kill sl [h])) (kill sl [h]) w
      | Some (SSeq t chk s) =>
          call_seq_p (seq_drop_p dp t chk) s (fun _ _ => (OutUnit, kill sl [h])) (fun _ => kill sl [h]) w
      | _ => DUB UType
      end
  | OAssign pl q new =>
      call_p (r <~ dlift (resolve sl pl) ;; assign_p dp (fst r) (snd r) q new) (fun _ => (OutUnit, sl)) sl w
  | ODrain h =>
      match nth_error sl h with
      | Some (SSeq t chk s) =>
          call_seq_p (drain_p dp t chk) s
            (fun _ s' => (OutUnit, update sl h (SSeq t chk s')))
            (fun s' => update sl h (SSeq t chk s')) w
      | _ => DUB UType
      end
  | OControllers pl news =>
      call_p (r <~ dlift (resolve sl pl) ;;
              match fst r with
              | TRec KStruct _ _ fs => try_set_p dp fs (snd r) news
              | _ => fun _ => DUB UType
              end) (fun b => (OutBool b, sl)) sl w
  | OTake h cmds keep =>
      match nth_error sl h with
      | Some (SSeq t chk s) =>
          call_seq_p (it <~ dlift (take_elems t chk) ;; dlft (take_run_p dp t it cmds keep)) s
            (fun l s' => (OutList l, update sl h (SSeq t chk s')))
            (fun s' => update sl h (SSeq t chk s')) w
      | _ => DUB UType
      end
  | _ =>
      match exec o (w, sl) with
      | Ok r c => DOk r c
      | Panic c =>
          if existsb dp (destroyed (skipn (length (w_log w)) (w_log (fst c)))) then DAbort else DPanic c
      | UB u => DUB u
      end
  end.
