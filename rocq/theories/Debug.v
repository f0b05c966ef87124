(** Debug.v - the functions that contain a debug_assert, as a debug build runs them. The functions
    without one are shared with the release build (Boxes.v, SeqModel.v). A failing assertion is
    the outcome [UB UAssert], so that it cannot be mistaken for any other panic. *)
From Verif Require Export SeqModel.

(** debug_assert! / debug_assert_eq! *)
Definition debug_assert {S} (b : bool) : M S unit := if b then ret tt else undef UAssert.

(** VBox::new (vbox.rs:54-69) with the assertion of line 66; [p.as_mut()] is the [check_ref]. *)
Definition vbox_new_dbg (t : vty) (i : init) : M world N :=
  lo <- on_unwind (init_layout t i) (drop_init t i) ;;
  match lo with
  | None => drop_init t i ;;; panic
  | Some l =>
      if from_size_align (lay_size l) (valign t) then
        p <- alloc (lay_size l) (valign t) ;;
        if p =? 0 then undef UNull
        else
          initialize t i p l ;;;
          check_ref p (head_size t) (head_align t) ;;;
          l' <- calc_layout t p ;;
          debug_assert (lay_size l' =? lay_size l) ;;;
          ret p
      else drop_init t i ;;; panic
  end.

(** grow_storage of CheckedIndexing (seq.rs:244-268) with the assertions of lines 249 and 259;
    UncheckedIndexing (159-165) has none. *)
Definition grow_storage_dbg (chk : bool) (ptr old_size align new_size : N) : M world (option N) :=
  if chk then
    debug_assert (old_size <=? new_size) ;;;
    r1 <- add_bitmask_to_layout old_size align ;;
    match r1 with
    | None => ret None
    | Some (old_full, old_bytes) =>
        if negb (from_size_align new_size align) then ret None else
        r2 <- add_bitmask_to_layout new_size align ;;
        match r2 with
        | None => ret None
        | Some (new_full, new_bytes) =>
            p <- realloc ptr old_full align new_full ;;
            match nonnull p with
            | None => ret None
            | Some p =>
                check_ref (p + old_size) old_bytes 1 ;;;
                check_ref (p + new_size) new_bytes 1 ;;;
                debug_assert (old_bytes <=? new_bytes) ;;;
                copy_bytes (p + old_size) (p + new_size) old_bytes ;;;
                (if old_bytes <=? new_bytes
                 then fill_zero (p + new_size + old_bytes) (new_bytes - old_bytes)
                 else panic) ;;;
                ret (Some p)
            end
        end
    end
  else grow_storage false ptr old_size align new_size.

(** try_realloc (seq.rs:490-511), must_realloc (515-523), try_push / push (665-697): as in the
    release build, but calling the debug version of grow_storage. *)
Definition try_realloc_dbg (chk : bool) (ptr cap minimum align : N) : M world (option (N * N)) :=
  match checked_mul cap 2 with
  | None => ret None
  | Some cap2 =>
      let size_offsets := N.max (N.max minimum ((32 + align - 1) / align)) cap2 in
      match checked_mul size_offsets align with
      | None => ret None
      | Some size_bytes =>
          old_size <- pmul cap align ;;
          if negb (from_size_align old_size align) then ret None else
          if negb (from_size_align size_bytes align) then ret None else
          r <- (if cap =? 0 then alloc_storage chk size_bytes align
                else grow_storage_dbg chk ptr old_size align size_bytes) ;;
          match r with
          | None => ret None
          | Some p => ret (Some (p, size_offsets))
          end
      end
  end.
Definition must_realloc_dbg (chk : bool) (ptr cap minimum align : N) : M world (N * N) :=
  r <- try_realloc_dbg chk ptr cap minimum align ;;
  match r with Some x => ret x | None => panic end.
Definition seq_push_dbg (t : vty) (chk : bool) (i : init) : SM unit :=
  lo <- lft (on_unwind (init_layout t i) (drop_init t i)) ;;
  match lo with
  | None => lft (drop_init t i) ;;; panic
  | Some l =>
      let align := valign t in
      match checked_add (lay_size l) (align - 1) with
      | None => lft (drop_init t i) ;;; panic
      | Some x =>
          let size_offsets := x / align in
          s <- get_sq ;;
          match checked_add (s_occ s) size_offsets with
          | None => lft (drop_init t i) ;;; panic
          | Some occupied_plus =>
              (if s_cap s <? occupied_plus then
                 r <- lft (on_unwind (must_realloc_dbg chk (s_ptr s) (s_cap s) occupied_plus align)
                                     (drop_init t i)) ;;
                 set_sq (mkS (fst r) (s_len s) (s_occ s) (snd r))
               else ret tt) ;;;
              s <- get_sq ;;
              lft (mark_offset_valid chk (s_ptr s) (s_cap s) (s_occ s) align) ;;;
              y <- pmul (s_occ s) align ;;
              lft (initialize t i (wrapping_add (s_ptr s) y) l) ;;;
              n <- padd (s_len s) 1 ;;
              set_sq (mkS (s_ptr s) n occupied_plus (s_cap s))
          end
      end
  end.

(** Seq::offset_of (seq.rs:768-778) with the assertion of line 770. *)
Definition offset_of_dbg (t : vty) (s : sq) (e : N) : M world N :=
  let byte_offset := wrapping_sub e (s_ptr s) in
  debug_assert (byte_offset mod valign t =? 0) ;;;
  let offset := byte_offset / valign t in
  if s_occ s <=? offset then panic else ret offset.
(** Seq::from_offset_unchecked(_mut) (seq.rs:808-816, 849-860) with the assertions of lines 809, 850;
    from_offset(_mut) (948-955, 977-984) on top of it. *)
Definition from_offset_unchecked_dbg (t : vty) (s : sq) (offset : N) : M world N :=
  debug_assert (offset <? s_occ s) ;;;
  x <- pmul offset (valign t) ;;
  let p := wrapping_add (s_ptr s) x in
  check_ref p (head_size t) (head_align t) ;;; ret p.
Definition from_offset_dbg (t : vty) (s : sq) (offset : N) : M world N :=
  ok <- is_offset_valid t s offset ;;
  if (ok : bool) then from_offset_unchecked_dbg t s offset else panic.
