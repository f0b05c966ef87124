(** ContractModel.v - VBox, Owned and Seq as generic code over the traits VarLen, Layout and
    Initializer (varlen/src/lib.rs:331-423, 548-551, 619-659).

    The other model files fix the element type to one of the types the crate can define. Here the
    element type is arbitrary: the containers see it only through the items of the traits. Each
    definition repeats the code of Boxes.v / SeqModel.v / Init.v with [head_size t], [calc_layout t]
    and so on replaced by the trait item; PropsContract.v proves (C68_same_code) that for the crate's
    own types the result is the same function. *)
From Verif Require Export SeqModel.

(** What a type T: VarLen with layouts L and an initializer type I: Initializer<T> provide.
    - [u_hsize], [u_halign]: size_of::<T>(), align_of::<T>();
    - [u_align], [u_nvdrop]: T::ALIGN, T::NEEDS_VDROP (lib.rs:331-423);
    - [u_ndrop]: core::mem::needs_drop::<T>();
    - [u_calc], [u_vdrop]: calculate_layout, vdrop (lib.rs:331-423), given the address of self;
    - [u_lsize]: Layout::size (lib.rs:548-551);
    - [u_cautious], [u_init]: calculate_layout_cautious, initialize (lib.rs:619-659);
    - [u_idrop]: the drop glue of an unused initializer. *)
Record impl (L I : Type) := mkImpl {
  u_hsize : N; u_halign : N; u_align : N; u_nvdrop : bool; u_ndrop : bool;
  u_calc : N -> M world L;
  u_lsize : L -> N;
  u_vdrop : N -> L -> M world unit;
  u_cautious : I -> M world (option L);
  u_init : I -> N -> L -> M world unit;
  u_idrop : I -> M world unit }.
Arguments u_hsize {L I}. Arguments u_halign {L I}. Arguments u_align {L I}.
Arguments u_nvdrop {L I}. Arguments u_ndrop {L I}. Arguments u_calc {L I}. Arguments u_lsize {L I}.
Arguments u_vdrop {L I}. Arguments u_cautious {L I}. Arguments u_init {L I}. Arguments u_idrop {L I}.

(** The crate's own types (Types.v) with the crate's own initializers (Init.v). *)
Definition crate_impl (t : vty) : impl lay init :=
  mkImpl _ _ (head_size t) (head_align t) (valign t) (needs_vdrop t) (core_needs_drop t)
    (calc_layout t) lay_size (vdrop t) (init_layout t) (initialize t) (drop_init t).

(** VBox::new (vbox.rs:54-69), as [vbox_new]. *)
Definition uvbox_new {L I} (u : impl L I) (i : I) : M world N :=
  lo <- on_unwind (u_cautious u i) (u_idrop u i) ;;
  match lo with
  | None => u_idrop u i ;;; panic
  | Some l =>
      if from_size_align (u_lsize u l) (u_align u) then
        p <- alloc (u_lsize u l) (u_align u) ;;
        if p =? 0 then undef UNull
        else u_init u i p l ;;; ret p
      else u_idrop u i ;;; panic
  end.
(** Drop for VBox (vbox.rs:147-155), as [vbox_drop]. *)
Definition uvbox_drop {L I} (u : impl L I) (a : N) : M world unit :=
  check_ref a (u_hsize u) (u_halign u) ;;;
  l <- u_calc u a ;;
  u_vdrop u a l ;;;
  dealloc a (u_lsize u l) (u_align u).
(** Drop for Owned (owned.rs:197-205), as [owned_drop]. *)
Definition uowned_drop {L I} (u : impl L I) (a : N) : M world unit :=
  check_ref a (u_hsize u) (u_halign u) ;;;
  l <- u_calc u a ;;
  u_vdrop u a l.
(** Owned::new_in (owned.rs:184-194), as [owned_new_in]. *)
Definition uowned_new_in {L I} (u : impl L I) (i : I) : M world N :=
  lo <- on_unwind (u_cautious u i) (u_idrop u i) ;;
  match lo with
  | None => u_idrop u i ;;; panic
  | Some l =>
      if from_size_align (u_lsize u l) (u_align u) then
        p <- on_unwind (bump_alloc (u_lsize u l) (u_align u)) (u_idrop u i) ;;
        u_init u i p l ;;; ret p
      else u_idrop u i ;;; panic
  end.

(** Seq::new (seq.rs:583-591), as [seq_new]. *)
Definition useq_new {L I} (u : impl L I) : sq := mkS (u_halign u) 0 0 0.
(** Seq::push / try_push (seq.rs:665-697), as [seq_push]. *)
Definition useq_push {L I} (u : impl L I) (chk : bool) (i : I) : SM unit :=
  lo <- lft (on_unwind (u_cautious u i) (u_idrop u i)) ;;
  match lo with
  | None => lft (u_idrop u i) ;;; panic
  | Some l =>
      let align := u_align u in
      match checked_add (u_lsize u l) (align - 1) with
      | None => lft (u_idrop u i) ;;; panic
      | Some x =>
          let size_offsets := x / align in
          s <- get_sq ;;
          match checked_add (s_occ s) size_offsets with
          | None => lft (u_idrop u i) ;;; panic
          | Some occupied_plus =>
              (if s_cap s <? occupied_plus then
                 r <- lft (on_unwind (must_realloc chk (s_ptr s) (s_cap s) occupied_plus align)
                                     (u_idrop u i)) ;;
                 set_sq (mkS (fst r) (s_len s) (s_occ s) (snd r))
               else ret tt) ;;;
              s <- get_sq ;;
              lft (mark_offset_valid chk (s_ptr s) (s_cap s) (s_occ s) align) ;;;
              y <- pmul (s_occ s) align ;;
              lft (u_init u i (wrapping_add (s_ptr s) y) l) ;;;
              n <- padd (s_len s) 1 ;;
              set_sq (mkS (s_ptr s) n occupied_plus (s_cap s))
          end
      end
  end.
(** Extend::extend (seq.rs:1044-1054), as [seq_extend]. *)
Definition useq_extend {L I} (u : impl L I) (chk : bool) (is_ : list I) : SM unit :=
  for_each (useq_push u chk) is_.
(** Extend::extend (seq.rs:1044-1054) on an iterator that owns its items, such as a vec::IntoIter: if a
    push panics, unwinding drops the iterator, which drops the items it has not handed out, in order.
    Simplification: freeing the iterator's own buffer is the standard library's business and not
    modelled. *)
Fixpoint uextend_owning {L I} (u : impl L I) (chk : bool) (is_ : list I) : SM unit :=
  match is_ with
  | [] => ret tt
  | i :: r => on_unwind (useq_push u chk i) (lft (for_each (u_idrop u) r)) ;;; uextend_owning u chk r
  end.

(** Iterator::next of Iter, IterMut, OwnedElems (seq.rs:1131-1141, 1217-1227, 1302-1312), as
    [iter_next]; all addresses, as [iter_collect]. *)
Definition uiter_next {L I} (u : impl L I) (it : iter) : M world (option N * iter) :=
  if 0 <? it_len it then
    check_ref (it_ptr it) (u_hsize u) (u_halign u) ;;;
    l <- u_calc u (it_ptr it) ;;
    ret (Some (it_ptr it),
         mkI (wrapping_add (it_ptr it) (round_up_fast (u_lsize u l) (u_align u))) (it_len it - 1))
  else ret (None, it).
Fixpoint uiter_collect {L I} (u : impl L I) (fuel : nat) (it : iter) : M world (list N) :=
  match fuel with
  | O => undef UType
  | S fuel =>
      r <- uiter_next u it ;;
      match fst r with
      | None => ret []
      | Some a => rest <- uiter_collect u fuel (snd r) ;; ret (a :: rest)
      end
  end.

(** is_offset_valid (seq.rs:1001-1011), from_offset_unchecked (808-860), from_offset (948-984). *)
Definition uis_offset_valid {L I} (u : impl L I) (s : sq) (offset : N) : M world bool :=
  if s_occ s <=? offset then ret false else
  x <- pmul (s_cap s) (u_align u) ;; y <- padd x (offset / 8) ;;
  bs <- load (wrapping_add (s_ptr s) y) 1 1 ;;
  match bs with
  | [By b] => ret (negb (N.land b (2 ^ (offset mod 8)) =? 0))
  | _ => undef UUninit
  end.
Definition ufrom_offset_unchecked {L I} (u : impl L I) (s : sq) (offset : N) : M world N :=
  x <- pmul offset (u_align u) ;;
  let p := wrapping_add (s_ptr s) x in
  check_ref p (u_hsize u) (u_halign u) ;;; ret p.
Definition ufrom_offset {L I} (u : impl L I) (s : sq) (offset : N) : M world N :=
  ok <- uis_offset_valid u s offset ;;
  if (ok : bool) then ufrom_offset_unchecked u s offset else panic.
(** Seq::offset_of (seq.rs:768-778), as [offset_of]. *)
Definition uoffset_of {L I} (u : impl L I) (s : sq) (e : N) : M world N :=
  let offset := wrapping_sub e (s_ptr s) / u_align u in
  if s_occ s <=? offset then panic else ret offset.

(** take_elems (seq.rs:904-917), Drop for OwnedElems (1332-1340), Drop for Seq (1014-1023). *)
Definition utake_elems {L I} (u : impl L I) (chk : bool) : SM iter :=
  s <- get_sq ;;
  let r := mkI (s_ptr s) (s_len s) in
  set_sq (mkS (s_ptr s) 0 0 (s_cap s)) ;;;
  s <- get_sq ;;
  lft (clear_bitmasks chk (s_ptr s) (s_cap s) (s_occ s) (u_align u)) ;;;
  ret r.
Fixpoint udrop_elems_loop {L I} (u : impl L I) (n : nat) (it : iter) : M world unit :=
  match n with
  | O => ret tt
  | S n =>
      r <- uiter_next u it ;;
      match fst r with
      | None => ret tt
      | Some a => uowned_drop u a ;;; udrop_elems_loop u n (snd r)
      end
  end.
Definition uowned_elems_drop {L I} (u : impl L I) (it : iter) : M world unit :=
  if u_ndrop u || u_nvdrop u
  then udrop_elems_loop u (S (N.to_nat (it_len it))) it else ret tt.
(** A client of take_elems: it takes elements as Owned values, forgets some of them (mem::forget) and
    drops the others, then drops the iterator (seq.rs:1302-1312 and 1332-1340). *)
Fixpoint upull {L I} (u : impl L I) (forget : list bool) (it : iter) : M world iter :=
  match forget with
  | [] => ret it
  | b :: forget =>
      r <- uiter_next u it ;;
      match fst r with
      | None => ret (snd r)
      | Some a => (if (b : bool) then ret tt else uowned_drop u a) ;;; upull u forget (snd r)
      end
  end.
Definition udrain {L I} (u : impl L I) (chk : bool) (forget : list bool) : SM unit :=
  it <- utake_elems u chk ;;
  it <- lft (upull u forget it) ;;
  lft (uowned_elems_drop u it).
Definition useq_drop {L I} (u : impl L I) (chk : bool) : SM unit :=
  s <- get_sq ;;
  if s_cap s =? 0 then ret tt else
  it <- utake_elems u chk ;;
  lft (uowned_elems_drop u it) ;;;
  s <- get_sq ;;
  size <- pmul (s_cap s) (u_align u) ;;
  full <- lft (extended_size chk size (u_align u)) ;;
  lft (dealloc (s_ptr s) full (u_align u)).

(** ** VBox<T> as an initializer of any T: VarLen (vbox.rs:179-200) *)

(** The initializers of T together with the boxes of T (with the value a box holds, which the code
    does not look at). *)
Inductive boxed (I V : Type) := Own (i : I) | Moved (a : N) (v : V).
Arguments Own {I V}. Arguments Moved {I V}.
(** Initializer::calculate_layout_cautious for VBox: Some(self.calculate_layout()); initialize: copy
    size() bytes to dst, then free the storage; dropping an unused VBox drops its object. *)
Definition with_boxes {L I} (V : Type) (u : impl L I) : impl L (boxed I V) :=
  mkImpl _ _ (u_hsize u) (u_halign u) (u_align u) (u_nvdrop u) (u_ndrop u)
    (u_calc u) (u_lsize u) (u_vdrop u)
    (fun b => match b with
              | Own i => u_cautious u i
              | Moved a _ =>
                  check_ref a (u_hsize u) (u_halign u) ;;;
                  l <- u_calc u a ;; ret (Some l)
              end)
    (fun b D l => match b with
                  | Own i => u_init u i D l
                  | Moved a _ =>
                      copy_nonoverlapping a D (u_lsize u l) 1 ;;;
                      dealloc a (u_lsize u l) (u_align u)
                  end)
    (fun b => match b with Own i => u_idrop u i | Moved a _ => uvbox_drop u a end).

(** The same type with initializers that say which memory blocks they refer to (nothing in the code
    looks at that). *)
Definition with_held {L I} (u : impl L I) : impl L (I * list block) :=
  mkImpl _ _ (u_hsize u) (u_halign u) (u_align u) (u_nvdrop u) (u_ndrop u)
    (u_calc u) (u_lsize u) (u_vdrop u)
    (fun i => u_cautious u (fst i)) (fun i => u_init u (fst i)) (fun i => u_idrop u (fst i)).
