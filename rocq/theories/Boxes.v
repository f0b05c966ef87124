(** Boxes.v - varlen/src/vbox.rs and varlen/src/owned.rs. *)
From Verif Require Export Access.

(** VBox::new (vbox.rs:54-69). On a failed size computation, or when a length expression
    panics, the initializer is dropped by the unwinding. The returned pointer is not checked against null: NonNull::new_unchecked(null) is
    undefined behaviour. The debug_assert_eq of the layouts is omitted (it is property C02). *)
Definition vbox_new (t : vty) (i : init) : M world N :=
  lo <- on_unwind (init_layout t i) (drop_init t i) ;;
  match lo with
  | None => drop_init t i ;;; panic
  | Some l =>
      if from_size_align (lay_size l) (valign t) then
        p <- alloc (lay_size l) (valign t) ;;
        if p =? 0 then undef UNull
        else initialize t i p l ;;; ret p
      else drop_init t i ;;; panic
  end.

(** VBox::clone (vbox.rs:237-241); the deref of self is the [check_ref]. *)
Definition vbox_clone (t : vty) (a : N) : M world N :=
  check_ref a (head_size t) (head_align t) ;;;
  i <- vclone t a ;; vbox_new t i.

(** VBox::into_raw (vbox.rs:112-116) and from_raw (142-144): the pointer itself. *)
Definition vbox_into_raw (a : N) : M world N := ret a.
Definition vbox_from_raw (a : N) : M world N := ret a.
(** Owned::into_raw (owned.rs:123-127) forgets self; Owned::from_raw (96-98). *)
Definition owned_into_raw (a : N) : M world N := ret a.
Definition owned_from_raw (a : N) : M world N := ret a.

(** Owned::leak (owned.rs:164-167): [let Owned(mut ptr, _) = self;] copies the (Copy) pointer out of
    self; self is still owned by the function and dropped at its end. *)
Definition owned_leak (t : vty) (a : N) : M world N :=
  check_ref a (head_size t) (head_align t) ;;;
  owned_drop t a ;;; ret a.

(** bumpalo::Bump::alloc_layout: an address for [size] bytes of fresh storage that is never given
    back individually, or a panic when out of memory. Zero-size requests are allowed. *)
Definition bump_alloc (size align : N) : M world N := fun w =>
  match w_alloc w (w_tick w) size align with
  | Some a =>
      if valid_answer (w_blocks w) a size align then
        if size =? 0 then Ok a (tick w)
        else Ok a (mkW (fill (w_mem w) a size Un) (mkB a size align false :: w_blocks w)
                       (w_alloc w) (S (w_tick w)) (w_log w))
      else Panic (tick w)
  | None => Panic (tick w)
  end.

(** Owned::new_in (owned.rs:184-194). *)
Definition owned_new_in (t : vty) (i : init) : M world N :=
  lo <- on_unwind (init_layout t i) (drop_init t i) ;;
  match lo with
  | None => drop_init t i ;;; panic
  | Some l =>
      if from_size_align (lay_size l) (valign t) then
        p <- on_unwind (bump_alloc (lay_size l) (valign t)) (drop_init t i) ;;
        initialize t i p l ;;; ret p
      else drop_init t i ;;; panic
  end.
