(** ReenterModel.v - the operations of a program again, now with user code that uses the crate itself
    while an operation of the crate is running: a closure passed to FillSequentially, an iterator, a
    Default or Clone implementation or a destructor can own or borrow other
    boxes, owned values and sequences of the program, and create, change, read and drop them.

    In Init.v such calls only leave an event. Here each of them also runs user code ([user]). Otherwise
    the functions are the same, line by line; functions that call no user code are used as they are
    ([up]). Length expressions (array.rs, #[varlen_array]) are still assumed to have no side effects, and
    destructors not to panic. *)
From Coq Require Export PeanoNat.
From Verif Require Export Program.

(** What user code does: any sequence of operations of a program; a panic is caught. The results of the
    closures, iterators and clones themselves are part of the initializer, as before. *)
Definition action : Type := config -> res config out.
(** The world, the values that user code can reach, and what user code will do at its next calls. *)
Definition ustate : Type := world * list slot * list (list action).
Fixpoint run_actions (l : list action) (c : config) : res config unit :=
  match l with
  | [] => Ok tt c
  | a :: r => match a c with Ok _ c' | Panic c' => run_actions r c' | UB u => UB u end
  end.
(** One call of user code. *)
Definition user : M ustate unit := fun '(w, sl, acts) =>
  match acts with
  | [] => Ok tt (w, sl, [])
  | l :: r =>
      match run_actions l (w, sl) with
      | Ok _ (w', sl') => Ok tt (w', sl', r)
      | Panic (w', sl') => Panic (w', sl', r)
      | UB u => UB u
      end
  end.
(** Code of the crate that calls no user code. *)
Definition up {A} (m : M world A) : M ustate A := fun '(w, sl, acts) =>
  match m w with
  | Ok a w' => Ok a (w', sl, acts) | Panic w' => Panic (w', sl, acts) | UB u => UB u
  end.
(** A call of user code that leaves event [e]. *)
Definition call_user (e : event) : M ustate unit := up (emit e) ;;; user.

(** ** Destructors *)

(** core::ptr::drop_in_place of one value of a fixed-size type, as [drop_leaf] in Init.v; a value held in
    a local variable. *)
Definition drop_leaf_u (f : fty) (a : N) : M ustate unit :=
  if f_drop f then
    bs <- up (load a (f_size f) (f_align f)) ;; call_user (EDrop bs)
  else ret tt.
Definition drop_value_u (f : fty) (v : list cell) : M ustate unit :=
  if f_drop f then call_user (EDrop v) else ret tt.
(** macro_support.rs:56-59 [drop_array]. *)
Definition drop_array_u (f : fty) (a off n : N) : M ustate unit :=
  let p := wrapping_add a off in
  up (check_ref p (n * f_size f) (f_align f)) ;;;
  for_each (fun i => drop_leaf_u f (p + i * f_size f)) (upto n).
(** VarLen::vdrop, see [vdrop] in Init.v: lib.rs:733, array.rs:153-159, newtype.rs:202-207,
    tuple.rs:174-182, varlen_macro/src/lib.rs:382-388, macro_support.rs:151-154. *)
Fixpoint vdrop_u (t : vty) (a : N) (l : lay) {struct t} : M ustate unit :=
  match t, l with
  | TFixed f, LyFix _ => drop_leaf_u f a
  | TArray f _, LyArr off n _ => drop_array_u f a off n
  | TNew t, l => if needs_vdrop t then vdrop_u t a l else ret tt
  | TRec kd _ _ fs, LyRec _ es =>
      match kd with
      | KTuple => if fneeds fs then vdrop_flds_u fs a es else ret tt
      | KStruct => vdrop_flds_u fs a es
      end
  | _, _ => undef UType
  end
with vdrop_flds_u (fs : flds) (a : N) (es : list (N * lay)) {struct fs} : M ustate unit :=
  match fs, es with
  | FNil, _ => ret tt
  | FNormal off f r, es | FLength off f r, es =>
      drop_leaf_u f (wrapping_add a off) ;;; vdrop_flds_u r a es
  | FVar t r, (off, l) :: es' =>
      up (check_ref (wrapping_add a off) (head_size t) (head_align t)) ;;;
      vdrop_u t (wrapping_add a off) l ;;; vdrop_flds_u r a es'
  | FArr f _ r, (off, LyLen n) :: es' => drop_array_u f a off n ;;; vdrop_flds_u r a es'
  | _, _ => undef UType
  end.
(** Drop for VBox, vbox.rs:147-155. *)
Definition vbox_drop_u (t : vty) (a : N) : M ustate unit :=
  up (check_ref a (head_size t) (head_align t)) ;;;
  l <- up (calc_layout t a) ;;
  vdrop_u t a l ;;;
  up (dealloc a (lay_size l) (valign t)).
(** Drop for Owned, owned.rs:197-205. *)
Definition owned_drop_u (t : vty) (a : N) : M ustate unit :=
  up (check_ref a (head_size t) (head_align t)) ;;;
  l <- up (calc_layout t a) ;;
  vdrop_u t a l.
(** Dropping an unused ArrayInitializer (array_init.rs:272, MoveFrom) or initializer (drop glue). *)
Definition drop_ainit_u (f : fty) (ai : ainit) : M ustate unit :=
  match ai with
  | AMoveFrom vs => for_each (drop_value_u f) vs
  | _ => ret tt
  end.
Fixpoint drop_init_u (t : vty) (i : init) {struct t} : M ustate unit :=
  match i with
  | ICopy _ _ => ret tt
  | IBox a _ => vbox_drop_u t a
  | IOwned a _ => owned_drop_u t a
  | _ =>
      match t, i with
      | TFixed f, IFixed v => drop_value_u f v
      | TFixed _, IFixedClone _ | TFixed _, IFixedCloneAt _ _ => ret tt
      | TArray f _, ISized _ ai => drop_ainit_u f ai
      | TNew t, INew i => drop_init_u t i
      | TRec _ _ _ fs, IRec is_ => drop_flds_u fs is_
      | _, _ => undef UType
      end
  end
with drop_flds_u (fs : flds) (is_ : list init) {struct fs} : M ustate unit :=
  match fs, is_ with
  | FNil, [] => ret tt
  | FNormal _ f r, IFixed v :: is' | FLength _ f r, IFixed v :: is' =>
      drop_value_u f v ;;; drop_flds_u r is'
  | FVar t r, i :: is' => drop_init_u t i ;;; drop_flds_u r is'
  | FArr f _ r, IArrF ai :: is' => drop_ainit_u f ai ;;; drop_flds_u r is'
  | _, _ => undef UType
  end.
(** tuple.rs:206, see [drop_flds_rev] in Init.v. *)
Fixpoint drop_flds_rev_u (fs : flds) (is_ : list init) {struct fs} : M ustate unit :=
  match fs, is_ with
  | FNil, [] => ret tt
  | FNormal _ f r, IFixed v :: is' | FLength _ f r, IFixed v :: is' =>
      drop_flds_rev_u r is' ;;; drop_value_u f v
  | FVar t r, i :: is' => drop_flds_rev_u r is' ;;; drop_init_u t i
  | FArr f _ r, IArrF ai :: is' => drop_flds_rev_u r is' ;;; drop_ainit_u f ai
  | _, _ => undef UType
  end.

(** ** Array initializers *)

(** The shared loop, as [fill_loop] in Init.v; [pre i] is the call of user code that produces item i. *)
Definition fill_loop_u (f : fty) (p : N) (pre : N -> M ustate unit) (g : N -> option (list cell))
    (i : N) : M ustate unit :=
  pre i ;;;
  match g i with
  | None => panic
  | Some v => up (store (p + i * f_size f) (f_align f) v)
  end.
(** array_init.rs:122-132 (FromIterPrefix), 159-165 (FillSequentially), 178-182 (FillWithDefault),
    209-216 (CopyFrom), 242-249 (CloneFrom), 275-282 (MoveFrom), 60-94 (a user's implementation; simplification:
    no other user code runs between its writes). *)
Definition ainit_run_u (f : fty) (ai : ainit) (p n : N) : M ustate unit :=
  match ai with
  | AFillSeq g => for_each (fill_loop_u f p (fun i => call_user (ECall i)) g) (upto n)
  | AFillDefault g => for_each (fill_loop_u f p (fun i => call_user (ECall i)) g) (upto n)
  | AIterPrefix g => for_each (fill_loop_u f p (fun _ => call_user ENext) g) (upto n)
  | ACopyFrom vs =>
      if len vs =? n then up (store p (f_align f) (concat vs)) else panic
  | ACloneFrom vs =>
      if len vs =? n then
        for_each (fill_loop_u f p (fun i => call_user (EClone (nth (N.to_nat i) vs [])))
                    (fun i => f_clone f (nth (N.to_nat i) vs []))) (upto n)
      else panic
  | ACopyAt a k _ =>
      if k =? n then up (copy_nonoverlapping a p (n * f_size f) (f_align f)) else panic
  | ACloneAt a k _ =>
      if k =? n then
        for_each (fun i => v <- up (load (a + i * f_size f) (f_size f) (f_align f)) ;;
                           fill_loop_u f p (fun _ => call_user (EClone v)) (fun _ => f_clone f v) i) (upto n)
      else panic
  | AMoveFrom vs =>
      if len vs =? n then
        for_each (fill_loop_u f p (fun _ => ret tt) (fun i => Some (nth (N.to_nat i) vs []))) (upto n)
      else for_each (drop_value_u f) vs ;;; panic
  | AUser ws fin =>
      for_each (fun '(i, v) => if i <? n then up (store (p + i * f_size f) (f_align f) v) else panic) (ws n) ;;;
      if fin n then ret tt else panic
  end.
(** macro_support.rs:74-87 [init_array]. *)
Definition init_array_u (f : fty) (ai : ainit) (a off n : N) : M ustate unit :=
  let p := wrapping_add a off in
  up (check_ref p (n * f_size f) (f_align f)) ;;; ainit_run_u f ai p n.

(** ** Initializer::initialize *)

(** Drop glue of an unwinding initialize, see [drop_temps] and [unwind_rec] in Init.v (tuple.rs:206,
    varlen_macro/src/lib.rs:416-425). *)
Definition drop_temps_u (temps : list (fty * list cell)) : M ustate unit :=
  for_each (fun '(f, v) => drop_value_u f v) temps.
Definition unwind_rec_u (kd : reckind) (temps : list (fty * list cell)) (r : flds) (is_ : list init)
    : M ustate unit :=
  match kd with
  | KTuple => drop_flds_rev_u r is_
  | KStruct => drop_temps_u temps ;;; drop_flds_u r is_
  end.
(** lib.rs:717,764, array.rs:368-382, newtype.rs:217,307, tuple.rs:202-219,
    varlen_macro/src/lib.rs:416-425, lib.rs:537-544, vbox.rs:180-193, owned.rs:215-222;
    macro_support.rs:138-147; see [initialize] in Init.v. *)
Fixpoint initialize_u (t : vty) (i : init) (dst : N) (l : lay) {struct t} : M ustate unit :=
  match i with
  | ICopy a _ => up (copy_nonoverlapping a dst (lay_size l) 1)
  | IBox a _ =>
      up (copy_nonoverlapping a dst (lay_size l) 1) ;;; up (dealloc a (lay_size l) (valign t))
  | IOwned a _ =>
      up (copy_nonoverlapping a dst (lay_size l * head_size t) (head_align t))
  | _ =>
      match t, i, l with
      | TFixed f, IFixed v, LyFix _ => up (store dst (f_align f) v)
      | TFixed f, IFixedClone v, LyFix _ =>
          call_user (EClone v) ;;;
          match f_clone f v with
          | None => panic
          | Some v' => up (store dst (f_align f) v')
          end
      | TFixed f, IFixedCloneAt a _, LyFix _ =>
          v <- up (load a (f_size f) (f_align f)) ;;
          call_user (EClone v) ;;;
          match f_clone f v with
          | None => panic
          | Some v' => up (store dst (f_align f) v')
          end
      | TArray f k, ISized n ai, LyArr off n' _ =>
          init_array_u f ai dst off n' ;;;
          up (store dst (len_size k) (enc_le (N.to_nat (len_size k)) n))
      | TNew t, INew i, l => initialize_u t i dst l
      | TRec kd hs ha fs, IRec is_, LyRec _ es =>
          vals <- init_fields_u kd fs is_ es dst [] ;;
          up (store dst ha (header_bytes hs vals))
      | _, _, _ => undef UType
      end
  end
with init_fields_u (kd : reckind) (fs : flds) (is_ : list init) (es : list (N * lay)) (dst : N)
    (temps : list (fty * list cell)) {struct fs} : M ustate (list (N * list cell)) :=
  match fs, is_, es with
  | FNil, [], [] => ret []
  | FNormal off f r, IFixed v :: is', es | FLength off f r, IFixed v :: is', es =>
      vals <- init_fields_u kd r is' es dst ((f, v) :: temps) ;; ret ((off, v) :: vals)
  | FVar t r, i :: is', (off, l) :: es' =>
      on_unwind (initialize_u t i (wrapping_add dst off) l) (unwind_rec_u kd temps r is') ;;;
      init_fields_u kd r is' es' dst temps
  | FArr f _ r, IArrF ai :: is', (off, LyLen n) :: es' =>
      on_unwind (init_array_u f ai dst off n) (unwind_rec_u kd temps r is') ;;;
      init_fields_u kd r is' es' dst temps
  | _, _, _ => undef UType
  end.

(** ** Boxes and setters *)

(** VBox::new (vbox.rs:54-69), see [vbox_new] in Boxes.v. *)
Definition vbox_new_u (t : vty) (i : init) : M ustate N :=
  lo <- on_unwind (up (init_layout t i)) (drop_init_u t i) ;;
  match lo with
  | None => drop_init_u t i ;;; panic
  | Some l =>
      if from_size_align (lay_size l) (valign t) then
        p <- up (alloc (lay_size l) (valign t)) ;;
        if p =? 0 then undef UNull
        else initialize_u t i p l ;;; ret p
      else drop_init_u t i ;;; panic
  end.
(** Owned::new_in (owned.rs:184-194), see [owned_new_in] in Boxes.v. *)
Definition owned_new_in_u (t : vty) (i : init) : M ustate N :=
  lo <- on_unwind (up (init_layout t i)) (drop_init_u t i) ;;
  match lo with
  | None => drop_init_u t i ;;; panic
  | Some l =>
      if from_size_align (lay_size l) (valign t) then
        p <- on_unwind (up (bump_alloc (lay_size l) (valign t))) (drop_init_u t i) ;;
        initialize_u t i p l ;;; ret p
      else drop_init_u t i ;;; panic
  end.
(** Assignment through a reference from muts() / mut_slice (array.rs:232-242), see [assign] in Access.v:
    the old value is dropped, then the new one written. *)
Definition assign_u (t : vty) (a : N) (p : path) (new : list cell) : M ustate unit :=
  q <- up (locate t a p) ;;
  drop_leaf_u (snd q) (fst q) ;;; up (store (fst q) (f_align (snd q)) new).
(** varlen_macro/src/lib.rs:454-482 [try_set_layout_controllers], see Access.v. *)
Fixpoint set_ctrls_u (a : N) (dp : list cell -> bool) (cf : list (N * fty)) (news : list (list cell))
    : M ustate unit :=
  match cf, news with
  | [], [] => ret tt
  | (off, f) :: cf', v :: news' =>
      old <- up (load (wrapping_add a off) (f_size f) (f_align f)) ;;
      drop_value_u f old ;;;
      up (store (wrapping_add a off) (f_align f) v) ;;;
      if f_drop f && dp old
      then for_each (fun '(f, v) => drop_value_u f v) (combine (map snd cf') news') ;;; panic
      else set_ctrls_u a dp cf' news'
  | _, _ => undef UType
  end.
Definition try_set_layout_controllers_u (fs : flds) (a : N) (dp : list cell -> bool)
    (news : list (list cell)) : M ustate bool :=
  before <- up (load_ctrls fs a) ;;
  valid <- on_unwind
    (up (mapM (fun lf : list (list cell) -> N => x <- len_call (lf before) ;; y <- len_call (lf news) ;; ret (x =? y)) (len_fns fs)))
    (for_each (fun '(f, v) => drop_value_u f v) (combine (map snd (ctrl_fields fs)) news)) ;;
  if forallb (fun b => b) valid
  then set_ctrls_u a dp (ctrl_fields fs) news ;;; ret true
  else for_each (fun '(f, v) => drop_value_u f v) (combine (map snd (ctrl_fields fs)) news) ;;;
       ret false.

(** ** Sequences *)

(** &mut self methods: the state also holds the sequence. *)
Definition lft_u {X A} (m : M ustate A) : M (ustate * X) A :=
  fun '(z, s) => match m z with
                 | Ok a z' => Ok a (z', s) | Panic z' => Panic (z', s) | UB u => UB u
                 end.
Definition get_u : M (ustate * sq) sq := fun '(z, s) => Ok s (z, s).
Definition set_u (s' : sq) : M (ustate * sq) unit := fun '(z, _) => Ok tt (z, s').
(** Seq::push (seq.rs:665-667) / try_push (670-697), see [seq_push] in SeqModel.v. *)
Definition seq_push_u (t : vty) (chk : bool) (i : init) : M (ustate * sq) unit :=
  lo <- lft_u (on_unwind (up (init_layout t i)) (drop_init_u t i)) ;;
  match lo with
  | None => lft_u (drop_init_u t i) ;;; panic
  | Some l =>
      let align := valign t in
      match checked_add (lay_size l) (align - 1) with
      | None => lft_u (drop_init_u t i) ;;; panic
      | Some x =>
          let size_offsets := x / align in
          s <- get_u ;;
          match checked_add (s_occ s) size_offsets with
          | None => lft_u (drop_init_u t i) ;;; panic
          | Some occupied_plus =>
              (if s_cap s <? occupied_plus then
                 r <- lft_u (on_unwind (up (must_realloc chk (s_ptr s) (s_cap s) occupied_plus align))
                                     (drop_init_u t i)) ;;
                 set_u (mkS (fst r) (s_len s) (s_occ s) (snd r))
               else ret tt) ;;;
              s <- get_u ;;
              lft_u (up (mark_offset_valid chk (s_ptr s) (s_cap s) (s_occ s) align)) ;;;
              y <- pmul (s_occ s) align ;;
              lft_u (initialize_u t i (wrapping_add (s_ptr s) y) l) ;;;
              n <- padd (s_len s) 1 ;;
              set_u (mkS (s_ptr s) n occupied_plus (s_cap s))
          end
      end
  end.
(** take_elems (seq.rs:904-917), see SeqModel.v. *)
Definition take_elems_u (t : vty) (chk : bool) : M (ustate * sq) iter :=
  s <- get_u ;;
  let r := mkI (s_ptr s) (s_len s) in
  set_u (mkS (s_ptr s) 0 0 (s_cap s)) ;;;
  s <- get_u ;;
  lft_u (up (clear_bitmasks chk (s_ptr s) (s_cap s) (s_occ s) (valign t))) ;;;
  ret r.
(** Drop for OwnedElems (seq.rs:1332-1340). *)
Fixpoint drop_elems_loop_u (t : vty) (n : nat) (it : iter) : M ustate unit :=
  match n with
  | O => ret tt
  | S n =>
      r <- up (iter_next t it) ;;
      match fst r with
      | None => ret tt
      | Some a => owned_drop_u t a ;;; drop_elems_loop_u t n (snd r)
      end
  end.
Definition owned_elems_drop_u (t : vty) (it : iter) : M ustate unit :=
  if core_needs_drop t || needs_vdrop t
  then drop_elems_loop_u t (S (N.to_nat (it_len it))) it else ret tt.
(** Drop for Seq (seq.rs:1014-1023). *)
Definition seq_drop_u (t : vty) (chk : bool) : M (ustate * sq) unit :=
  s <- get_u ;;
  if s_cap s =? 0 then ret tt else
  it <- take_elems_u t chk ;;
  lft_u (owned_elems_drop_u t it) ;;;
  s <- get_u ;;
  size <- pmul (s_cap s) (valign t) ;;
  full <- lft_u (up (extended_size chk size (valign t))) ;;
  lft_u (up (dealloc (s_ptr s) full (valign t))).

(** The client code of [OTake], see Program.v (seq.rs:1298-1340, owned.rs:146-148, 207-211). *)
Definition held_u (j : nat) : M (ustate * tstate) N :=
  fun '(z, s) => match nth_error (snd s) j with Some (Some a) => Ok a (z, s) | _ => UB UType end.
Definition let_go_u (j : nat) : M (ustate * tstate) unit :=
  fun '(z, (it, l)) => Ok tt (z, (it, update l j None)).
Definition take_cmd_u (t : vty) (c : tcmd) : M (ustate * tstate) out :=
  match c with
  | TNext => fun '(z, (it, l)) =>
      match up (iter_next t it) z with
      | Ok (None, it') z' => Ok (OutBool false) (z', (it', l))
      | Ok (Some a, it') z' => Ok (OutBool true) (z', (it', l ++ [Some a]))
      | Panic z' => Panic (z', (it, l))
      | UB u => UB u
      end
  | TLen => fun '(z, (it, l)) => Ok (OutNum (iter_len it)) (z, (it, l))
  | TRead j =>
      a <- held_u j ;;
      lft_u (up (check_ref a (head_size t) (head_align t))) ;;;
      v <- lft_u (up (view t a)) ;; ret (OutVal v)
  | TAssign j q new =>
      a <- held_u j ;;
      lft_u (up (check_ref a (head_size t) (head_align t))) ;;;
      lft_u (assign_u t a q new) ;;; ret OutUnit
  | TDrop j => a <- held_u j ;; let_go_u j ;;; lft_u (owned_drop_u t a) ;;; ret OutUnit
  | TForget j => let_go_u j ;;; ret OutUnit
  end.
Definition take_end_u (t : vty) (keep : bool) (s : tstate) : M ustate unit :=
  for_each (fun o => match o with Some a => owned_drop_u t a | None => ret tt end) (snd s) ;;;
  (if keep then ret tt else owned_elems_drop_u t (fst s)).
Definition take_run_u (t : vty) (it : iter) (cmds : list tcmd) (keep : bool) : M ustate (list out) := fun z =>
  match mapM (take_cmd_u t) cmds (z, (it, [])) with
  | Ok outs (z', s) => (take_end_u t keep s ;;; ret outs) z'
  | Panic (z', s) => (take_end_u t false s ;;; panic) z'
  | UB u => UB u
  end.

(** ** Programs *)

(** Rust's borrow rules: while an operation runs, user code cannot reach the values the operation owns or
    borrows. The variable for a new value exists from the start but holds nothing yet. *)
Definition creates (o : op) : bool :=
  match o with ONewBox _ _ | ONewOwned _ _ | ONewSeq _ _ => true | _ => false end.
Definition with_room {A} (d : A) (o : op) (l : list A) : list A := if creates o then l ++ [d] else l.
(** The values of the operation: those it mentions, and the new one, number [n]. *)
Definition own_handles (o : op) (n : nat) : list nat := mentions o ++ if creates o then [n] else [].
(** The values of [l] with the numbers [hs], all others from [l']. *)
Definition merge {A} (d : A) (hs : list nat) (l l' : list A) : list A :=
  map (fun h => if in_dec Nat.eq_dec h hs then nth h l d else nth h l' d) (seq 0 (length l')).

(** Run an operation; [k] and [kp] give what it does to the values as far as it is concerned. *)
Definition done_u {A} (o : op) (n : nat) (k : A -> out * list slot) (kp : list slot) (r : res ustate A) : res config out :=
  match r with
  | Ok a (w', sl', _) => Ok (fst (k a)) (w', merge SDead (own_handles o n) (snd (k a)) sl')
  | Panic (w', sl', _) => Panic (w', merge SDead (own_handles o n) kp sl')
  | UB u => UB u
  end.
Definition done_seq_u {A} (o : op) (n : nat) (k : A -> sq -> out * list slot) (kp : sq -> list slot)
    (r : res (ustate * sq) A) : res config out :=
  match r with
  | Ok a (w', sl', _, s') => Ok (fst (k a s')) (w', merge SDead (own_handles o n) (snd (k a s')) sl')
  | Panic (w', sl', _, s') => Panic (w', merge SDead (own_handles o n) (kp s') sl')
  | UB u => UB u
  end.
(** One operation of a program, see [exec] in Program.v; [acts] says what user code does at its calls. *)
Definition exec_with (o : op) (acts : list (list action)) : config -> res config out := fun '(w, sl) =>
  let z : ustate := (w, kill (with_room SDead o sl) (mentions o), acts) in
  let n := length sl in
  match o with
  | ONewBox t p =>
      done_u o n (fun a => (OutUnit, kill sl (moves p) ++ [SBox t a])) (kill sl (moves p))
        ((i <- up (eval sl p) ;; vbox_new_u t i) z)
  | ONewOwned t p =>
      done_u o n (fun a => (OutUnit, kill sl (moves p) ++ [SOwn t a])) (kill sl (moves p))
        ((i <- up (eval sl p) ;; owned_new_in_u t i) z)
  | OPush h p =>
      match nth_error sl h with
      | Some (SSeq t chk s) =>
          done_seq_u o n (fun _ s' => (OutUnit, update (kill sl (moves p)) h (SSeq t chk s')))
            (fun s' => update (kill sl (moves p)) h (SSeq t chk s'))
            ((i <- lft_u (up (eval sl p)) ;; seq_push_u t chk i) (z, s))
      | _ => UB UType
      end
  | ODrop h =>
      match nth_error sl h with
      | Some (SBox t a) => done_u o n (fun _ => (OutUnit, kill sl [h])) (kill sl [h]) (vbox_drop_u t a z)
      | Some (SOwn t a) => done_u o n (fun _ => (OutUnit, kill sl [h])) (kill sl [h]) (owned_drop_u t a z)
      | Some (SSeq t chk s) =>
          done_seq_u o n (fun _ _ => (OutUnit, kill sl [h])) (fun _ => kill sl [h]) (seq_drop_u t chk (z, s))
      | _ => UB UType
      end
  | OAssign pl q new =>
      done_u o n (fun _ => (OutUnit, sl)) sl ((r <- up (resolve sl pl) ;; assign_u (fst r) (snd r) q new) z)
  | OControllers pl news =>
      done_u o n (fun b => (OutBool b, sl)) sl
        ((r <- up (resolve sl pl) ;;
          match fst r with
          | TRec KStruct _ _ fs => try_set_layout_controllers_u fs (snd r) (fun _ => false) news
          | _ => undef UType
          end) z)
  | ODrain h =>
      match nth_error sl h with
      | Some (SSeq t chk s) =>
          done_seq_u o n (fun _ s' => (OutUnit, update sl h (SSeq t chk s')))
            (fun s' => update sl h (SSeq t chk s'))
            ((it <- take_elems_u t chk ;; lft_u (owned_elems_drop_u t it)) (z, s))
      | _ => UB UType
      end
  | OTake h cmds keep =>
      match nth_error sl h with
      | Some (SSeq t chk s) =>
          done_seq_u o n (fun l s' => (OutList l, update sl h (SSeq t chk s')))
            (fun s' => update sl h (SSeq t chk s'))
            ((it <- take_elems_u t chk ;; lft_u (take_run_u t it cmds keep)) (z, s))
      | _ => UB UType
      end
  | _ => exec o (w, sl)                               (* no user code runs *)
  end.

(** Operations with user code: at the k-th call of user code during [o], user code runs the k-th element
    of [script] (which can itself contain operations with user code). *)
Inductive uop := UOp (o : op) (script : list (list uop)).
Fixpoint exec_u (u : uop) : config -> res config out :=
  match u with UOp o script => exec_with o (map (map exec_u) script) end.
