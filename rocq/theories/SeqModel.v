(** SeqModel.v - varlen/src/seq.rs. *)
From Verif Require Export Boxes.

(** Seq<T, Idx> (seq.rs:425-436). The indexing mode is a separate parameter [chk]: true for
    CheckedIndexing, false for UncheckedIndexing. *)
Record sq := mkS { s_ptr : N; s_len : N; s_occ : N; s_cap : N }.

(** &mut self methods run in a monad whose state also holds the sequence. *)
Definition SM (A : Type) := M (world * sq) A.
Definition lft {A} (m : M world A) : SM A :=
  fun '(w, s) => match m w with
                 | Ok a w' => Ok a (w', s) | Panic w' => Panic (w', s) | UB u => UB u
                 end.
Definition get_sq : SM sq := fun '(w, s) => Ok s (w, s).
Definition set_sq (s' : sq) : SM unit := fun '(w, _) => Ok tt (w, s').

(** seq.rs:223-230 [add_bitmask_to_layout] on a layout (size, align): the extended size and the
    number of bitmask bytes. [lim] is the limit of Layout::from_size_align. *)
Definition add_bitmask_lim (lim size align : N) : M world (option (N * N)) :=
  if negb (size mod align =? 0) then panic else
  let offsets := size / align in
  match checked_add offsets 7 with
  | None => ret None
  | Some x =>
      let bitmask_bytes := x / 8 in
      full <- padd size bitmask_bytes ;;
      if from_size_align_lim lim full align then ret (Some (full, bitmask_bytes)) else ret None
  end.
Definition add_bitmask_to_layout : N -> N -> M world (option (N * N)) := add_bitmask_lim ISIZE_MAX.

(** NonNull::new *)
Definition nonnull (p : N) : option N := if p =? 0 then None else Some p.

(** Indexing::alloc_storage: seq.rs:156-158 (unchecked), 234-242 (checked). *)
Definition alloc_storage (chk : bool) (size align : N) : M world (option N) :=
  if chk then
    r <- add_bitmask_to_layout size align ;;
    match r with
    | None => ret None
    | Some (full, bitmask_bytes) =>
        p <- alloc full align ;;
        match nonnull p with
        | None => ret None
        | Some p => fill_zero (p + size) bitmask_bytes ;;; ret (Some p)
        end
    end
  else
    p <- alloc size align ;; ret (nonnull p).

(** Indexing::grow_storage: seq.rs:159-165 (unchecked), 244-268 (checked). *)
Definition grow_storage (chk : bool) (ptr old_size align new_size : N) : M world (option N) :=
  if chk then
    r1 <- add_bitmask_to_layout old_size align ;;
    match r1 with
    | None => ret None
    | Some (old_full, old_bytes) =>
        if negb (from_size_align new_size align) then ret None else
        r2 <- add_bitmask_to_layout new_size align ;;
        match r2 with
        | None => ret None
        | Some (new_full, new_bytes) =>
            p <- realloc ptr old_full align new_full ;;
            match nonnull p with
            | None => ret None
            | Some p =>
                check_ref (p + old_size) old_bytes 1 ;;;
                check_ref (p + new_size) new_bytes 1 ;;;
                copy_bytes (p + old_size) (p + new_size) old_bytes ;;;
                (if old_bytes <=? new_bytes
                 then fill_zero (p + new_size + old_bytes) (new_bytes - old_bytes)
                 else panic) ;;;
                ret (Some p)
            end
        end
    end
  else
    p <- realloc ptr old_size align new_size ;; ret (nonnull p).

(** Indexing::mark_offset_valid: seq.rs:168-173 (unchecked), 270-277 (checked). *)
Definition mark_offset_valid (chk : bool) (ptr cap offset align : N) : M world unit :=
  if chk then
    x <- pmul cap align ;; y <- padd x (offset / 8) ;;
    let p := wrapping_add ptr y in
    bs <- load p 1 1 ;;
    match bs with
    | [By b] => store p 1 [By (N.lor b (2 ^ (offset mod 8)))]
    | _ => undef UUninit
    end
  else ret tt.

(** Indexing::clear_bitmasks: seq.rs:176-181 (unchecked), 280-288 (checked). *)
Definition clear_bitmasks (chk : bool) (ptr cap occ align : N) : M world unit :=
  if chk then
    x <- padd occ 7 ;; y <- pmul cap align ;; fill_zero (ptr + y) (x / 8)
  else ret tt.

(** Indexing::extended_layout: seq.rs:183-185 (unchecked), 291-295 (checked); the extended size. *)
Definition extended_size (chk : bool) (size align : N) : M world N :=
  if chk then
    r <- add_bitmask_to_layout size align ;;
    match r with Some (full, _) => ret full | None => panic end
  else ret size.

(** seq.rs:485-487 [round_up_fast] *)
Definition round_up_fast (size align : N) : N := mask_align (wrapping_add size (align - 1)) align.

(** seq.rs:490-511 [try_realloc]; [None] is Err(OverflowError). *)
Definition try_realloc (chk : bool) (ptr cap minimum align : N) : M world (option (N * N)) :=
  match checked_mul cap 2 with
  | None => ret None
  | Some cap2 =>
      let size_offsets := N.max (N.max minimum ((32 + align - 1) / align)) cap2 in
      match checked_mul size_offsets align with
      | None => ret None
      | Some size_bytes =>
          old_size <- pmul cap align ;;
          if negb (from_size_align old_size align) then ret None else
          if negb (from_size_align size_bytes align) then ret None else
          r <- (if cap =? 0 then alloc_storage chk size_bytes align
                else grow_storage chk ptr old_size align size_bytes) ;;
          match r with
          | None => ret None
          | Some p => ret (Some (p, size_offsets))
          end
      end
  end.
(** seq.rs:515-523 [must_realloc] *)
Definition must_realloc (chk : bool) (ptr cap minimum align : N) : M world (N * N) :=
  r <- try_realloc chk ptr cap minimum align ;;
  match r with Some x => ret x | None => panic end.

(** Seq::new (seq.rs:583-591); NonNull::dangling() is the alignment of the Rust type T. *)
Definition seq_new (t : vty) : sq := mkS (head_align t) 0 0 0.

(** Seq::push (seq.rs:665-667) / try_push (670-697). When it fails before [initialize], the
    initializer is dropped (by the return or the unwinding) and the push panics. *)
Definition seq_push (t : vty) (chk : bool) (i : init) : SM unit :=
  lo <- lft (on_unwind (init_layout t i) (drop_init t i)) ;;
  match lo with
  | None => lft (drop_init t i) ;;; panic
  | Some l =>
      let align := valign t in
      match checked_add (lay_size l) (align - 1) with
      | None => lft (drop_init t i) ;;; panic
      | Some x =>
          let size_offsets := x / align in
          s <- get_sq ;;
          match checked_add (s_occ s) size_offsets with
          | None => lft (drop_init t i) ;;; panic
          | Some occupied_plus =>
              (if s_cap s <? occupied_plus then
                 r <- lft (on_unwind (must_realloc chk (s_ptr s) (s_cap s) occupied_plus align)
                                     (drop_init t i)) ;;
                 set_sq (mkS (fst r) (s_len s) (s_occ s) (snd r))
               else ret tt) ;;;
              s <- get_sq ;;
              lft (mark_offset_valid chk (s_ptr s) (s_cap s) (s_occ s) align) ;;;
              y <- pmul (s_occ s) align ;;
              lft (initialize t i (wrapping_add (s_ptr s) y) l) ;;;
              n <- padd (s_len s) 1 ;;
              set_sq (mkS (s_ptr s) n occupied_plus (s_cap s))
          end
      end
  end.

(** Extend::extend (seq.rs:1044-1054), for the items an iterator produces, in order. Items the
    iterator has not produced yet when a push panics are not modelled. *)
Definition seq_extend (t : vty) (chk : bool) (is_ : list init) : SM unit :=
  for_each (seq_push t chk) is_.

(** The iterators Iter, IterMut, OwnedElems (seq.rs:1094-1098, 1176-1180, 1291-1296). *)
Record iter := mkI { it_ptr : N; it_len : N }.
(** Seq::iter / iter_mut (seq.rs:709-715, 731-737). *)
Definition seq_iter (s : sq) : iter := mkI (s_ptr s) (s_len s).
(** limited_to (seq.rs:1118-1124, 1207-1210). *)
Definition limited_to (it : iter) (n : N) : iter := mkI (it_ptr it) (N.min (it_len it) n).
(** size_hint, count, len (seq.rs:1144-1158, 1230-1245, 1315-1330). *)
Definition iter_size_hint (it : iter) : N * option N := (it_len it, Some (it_len it)).
Definition iter_len (it : iter) : N := it_len it.
(** Iterator::next (seq.rs:1131-1141, 1217-1227, 1302-1312): the address of the element. *)
Definition iter_next (t : vty) (it : iter) : M world (option N * iter) :=
  if 0 <? it_len it then
    check_ref (it_ptr it) (head_size t) (head_align t) ;;;
    l <- calc_layout t (it_ptr it) ;;
    ret (Some (it_ptr it),
         mkI (wrapping_add (it_ptr it) (round_up_fast (lay_size l) (valign t))) (it_len it - 1))
  else ret (None, it).
(** The addresses of all elements an iterator yields ([for x in it]); [fuel] bounds the number of
    calls of next. *)
Fixpoint iter_collect (t : vty) (fuel : nat) (it : iter) : M world (list N) :=
  match fuel with
  | O => undef UType
  | S fuel =>
      r <- iter_next t it ;;
      match fst r with
      | None => ret []
      | Some a => rest <- iter_collect t fuel (snd r) ;; ret (a :: rest)
      end
  end.
(** Reading all elements of a sequence: iterate and view each. *)
Definition seq_contents (t : vty) (s : sq) : M world (list vval) :=
  addrs <- iter_collect t (S (N.to_nat (s_len s))) (seq_iter s) ;;
  mapM (view t) addrs.

(** Seq::len, offset, capacity_in_offsets (seq.rs:607,647,625). *)
Definition seq_len (s : sq) : N := s_len s.
Definition seq_offset (s : sq) : N := s_occ s.
Definition seq_capacity (s : sq) : N := s_cap s.

(** Seq::offset_of (seq.rs:768-778) on an element reference with address [e]. The debug_assert is
    omitted (release build). *)
Definition offset_of (t : vty) (s : sq) (e : N) : M world N :=
  let offset := wrapping_sub e (s_ptr s) / valign t in
  if s_occ s <=? offset then panic else ret offset.
(** Seq::from_offset_unchecked(_mut) (seq.rs:808-816, 849-860), debug_assert omitted. *)
Definition from_offset_unchecked (t : vty) (s : sq) (offset : N) : M world N :=
  x <- pmul offset (valign t) ;;
  let p := wrapping_add (s_ptr s) x in
  check_ref p (head_size t) (head_align t) ;;; ret p.
(** is_offset_valid (seq.rs:1001-1011). *)
Definition is_offset_valid (t : vty) (s : sq) (offset : N) : M world bool :=
  if s_occ s <=? offset then ret false else
  x <- pmul (s_cap s) (valign t) ;; y <- padd x (offset / 8) ;;
  bs <- load (wrapping_add (s_ptr s) y) 1 1 ;;
  match bs with
  | [By b] => ret (negb (N.land b (2 ^ (offset mod 8)) =? 0))
  | _ => undef UUninit
  end.
(** from_offset / from_offset_mut (seq.rs:948-955, 977-984). *)
Definition from_offset (t : vty) (s : sq) (offset : N) : M world N :=
  ok <- is_offset_valid t s offset ;;
  if (ok : bool) then from_offset_unchecked t s offset else panic.

(** take_elems (seq.rs:904-917). Note the order: occupied_offsets is zeroed before it is passed to
    clear_bitmasks. *)
Definition take_elems (t : vty) (chk : bool) : SM iter :=
  s <- get_sq ;;
  let r := mkI (s_ptr s) (s_len s) in
  set_sq (mkS (s_ptr s) 0 0 (s_cap s)) ;;;
  s <- get_sq ;;
  lft (clear_bitmasks chk (s_ptr s) (s_cap s) (s_occ s) (valign t)) ;;;
  ret r.

(** core::mem::needs_drop::<T>() of the Rust type T: tuples and define_varlen structs implement
    Drop (tuple.rs:236, varlen_macro/src/lib.rs:338); Array has no drop glue. *)
Fixpoint core_needs_drop (t : vty) : bool :=
  match t with
  | TFixed f => f_drop f
  | TArray _ _ => false
  | TNew t => core_needs_drop t
  | TRec _ _ _ _ => true
  end.
(** Drop for OwnedElems (seq.rs:1332-1340): drops the remaining elements. [next] decrements the
    counter each time, so the loop runs [it_len] times. *)
Fixpoint drop_elems_loop (t : vty) (n : nat) (it : iter) : M world unit :=
  match n with
  | O => ret tt
  | S n =>
      r <- iter_next t it ;;
      match fst r with
      | None => ret tt
      | Some a => owned_drop t a ;;; drop_elems_loop t n (snd r)
      end
  end.
Definition owned_elems_drop (t : vty) (it : iter) : M world unit :=
  if core_needs_drop t || needs_vdrop t
  then drop_elems_loop t (S (N.to_nat (it_len it))) it else ret tt.

(** Seq::layout (seq.rs:919-924) and Drop for Seq (1014-1023). *)
Definition seq_drop (t : vty) (chk : bool) : SM unit :=
  s <- get_sq ;;
  if s_cap s =? 0 then ret tt else
  it <- take_elems t chk ;;
  lft (owned_elems_drop t it) ;;;
  s <- get_sq ;;
  size <- pmul (s_cap s) (valign t) ;;
  full <- lft (extended_size chk size (valign t)) ;;
  lft (dealloc (s_ptr s) full (valign t)).

(** FromIterator::from_iter (seq.rs:1070-1079) and the seq! macro (69-79): push the items one by
    one; when one panics the unwinding drops the sequence. *)
Definition seq_collect (t : vty) (chk : bool) (is_ : list init) : M world sq := fun w =>
  match seq_extend t chk is_ (w, seq_new t) with
  | Ok _ (w', s) => Ok s w'
  | Panic (w', s) =>
      match seq_drop t chk (w', s) with
      | Ok _ (w'', _) => Panic w'' | Panic (w'', _) => Panic w'' | UB u => UB u
      end
  | UB u => UB u
  end.
