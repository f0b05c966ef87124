(** Machine.v - the abstract machine: memory, allocator, outcomes.

    This file models the parts of core/alloc that the crate relies on
    (std::alloc, core::ptr, panics); it contains no code of the crate itself. *)
From Verif Require Export Base.

(** A live allocation: base address, size in bytes, alignment it was requested with. [b_heap] is
    false for storage that does not come from the global allocator (stack, bump arena): such a
    block may be accessed but not passed to [dealloc]/[realloc]. *)
Record block := mkB { b_base : N; b_size : N; b_align : N; b_heap : bool }.

(** Observable events. *)
Inductive event :=
| EDrop (v : list cell)                      (* a destructor ran on a value with these bytes *)
| EClone (v : list cell)                     (* Clone::clone was called on this value *)
| ECall (i : N)                              (* a FillSequentially closure was called with i; T::default() for item i *)
| ENext                                      (* Iterator::next was called *)
| EAlloc (base size align : N)
| EDealloc (base size align : N)
| ERealloc (base size align newbase newsize : N).

(** [w_alloc tick size align] is what the allocator answers to its [tick]-th request: an address
    or failure. It is an arbitrary function, so a statement about all worlds covers every
    allocator behaviour. *)
Record world := mkW {
  w_mem : N -> cell;
  w_blocks : list block;
  w_alloc : nat -> N -> N -> option N;
  w_tick : nat;
  w_log : list event }.

(** Reasons for undefined behaviour. [UArith] marks an overflowing plain [+]/[*]
    (a panic in debug builds, silent wrap-around in release builds), [UAssert] a failing
    debug_assert (a panic in debug builds, see Debug.v). *)
Inductive ub := UOob | UAlign | UNull | UUninit | UZeroAlloc | UDealloc | UOverlap | UArith | UType | UAssert | UUtf8.

(** Outcome of an operation over state [S]: normal return, panic (with the state the unwinding
    leaves behind), or undefined behaviour. *)
Inductive res (S A : Type) :=
| Ok (a : A) (s : S)
| Panic (s : S)
| UB (u : ub).
Arguments Ok {S A}. Arguments Panic {S A}. Arguments UB {S A}.

Definition M (S A : Type) := S -> res S A.
Definition ret {S A} (a : A) : M S A := fun s => Ok a s.
Definition bind {S A B} (m : M S A) (k : A -> M S B) : M S B :=
  fun s => match m s with Ok a s' => k a s' | Panic s' => Panic s' | UB u => UB u end.
Definition panic {S A} : M S A := fun s => Panic s.
Definition undef {S A} (u : ub) : M S A := fun _ => UB u.
Notation "x <- m ;; k" := (bind m (fun x => k)) (at level 61, m at next level, right associativity).
Notation "m1 ;;; m2" := (bind m1 (fun _ => m2)) (at level 61, right associativity).

(** Run [m]; if it panics, run the cleanup [c] (drop glue executed by unwinding) and go on
    panicking. *)
Definition on_unwind {S A} (m : M S A) (c : M S unit) : M S A :=
  fun s => match m s with
           | Ok a s' => Ok a s'
           | Panic s' => match c s' with Ok _ s'' => Panic s'' | Panic s'' => Panic s'' | UB u => UB u end
           | UB u => UB u
           end.

(** [for x in l { body(x) }] *)
Fixpoint for_each {S A} (body : A -> M S unit) (l : list A) : M S unit :=
  match l with
  | [] => ret tt
  | x :: r => body x ;;; for_each body r
  end.
(** Collect the results of [body] over a list. *)
Fixpoint mapM {S A B} (body : A -> M S B) (l : list A) : M S (list B) :=
  match l with
  | [] => ret []
  | x :: r => y <- body x ;; ys <- mapM body r ;; ret (y :: ys)
  end.

(** ** Raw memory functions *)

(** The [n] cells starting at [a]. *)
Fixpoint rdn (m : N -> cell) (a : N) (n : nat) : list cell :=
  match n with
  | O => []
  | S n' => m a :: rdn m (a + 1) n'
  end.
Definition rd (m : N -> cell) (a n : N) : list cell := rdn m a (N.to_nat n).
(** Memory with [bs] stored at [a]. *)
Definition wr (m : N -> cell) (a : N) (bs : list cell) : N -> cell :=
  fun x => if (a <=? x) && (x <? a + len bs) then nth (N.to_nat (x - a)) bs Un else m x.
(** Memory with [n] cells set to [c]. *)
Definition fill (m : N -> cell) (a n : N) (c : cell) : N -> cell :=
  fun x => if (a <=? x) && (x <? a + n) then c else m x.
(** memmove of [n] bytes. *)
Definition move (m : N -> cell) (src dst n : N) : N -> cell :=
  fun x => if (dst <=? x) && (x <? dst + n) then m (src + (x - dst)) else m x.

Definition set_mem (w : world) (m : N -> cell) : world :=
  mkW m (w_blocks w) (w_alloc w) (w_tick w) (w_log w).
Definition set_blocks (w : world) (bl : list block) : world :=
  mkW (w_mem w) bl (w_alloc w) (w_tick w) (w_log w).
Definition add_log (w : world) (es : list event) : world :=
  mkW (w_mem w) (w_blocks w) (w_alloc w) (w_tick w) (w_log w ++ es).
Definition tick (w : world) : world :=
  mkW (w_mem w) (w_blocks w) (w_alloc w) (S (w_tick w)) (w_log w).

Definition emit (e : event) : M world unit := fun w => Ok tt (add_log w [e]).

(** [n] bytes at [a] lie inside one live allocation ([n = 0] needs no storage). *)
Definition in_block (a n : N) (b : block) : bool :=
  (b_base b <=? a) && (a + n <=? b_base b + b_size b).
Definition inb (w : world) (a n : N) : bool := (n =? 0) || existsb (in_block a n) (w_blocks w).

(** A typed access or the creation of a reference to [n] bytes with alignment [al]. *)
Definition check_ref (a n al : N) : M world unit := fun w =>
  if a =? 0 then UB UNull
  else if negb (a mod al =? 0) then UB UAlign
  else if negb (inb w a n) then UB UOob
  else Ok tt w.

(** Typed load / store of [n] bytes. *)
Definition load (a n al : N) : M world (list cell) :=
  check_ref a n al ;;; (fun w => Ok (rd (w_mem w) a n) w).
Definition store (a al : N) (bs : list cell) : M world unit :=
  check_ref a (len bs) al ;;; (fun w => Ok tt (set_mem w (wr (w_mem w) a bs))).

(** core::ptr::copy_nonoverlapping of [n] bytes at alignment [al]. *)
Definition copy_nonoverlapping (src dst n al : N) : M world unit :=
  check_ref src n al ;;; check_ref dst n al ;;;
  (fun w => if (n =? 0) || (src + n <=? dst) || (dst + n <=? src)
            then Ok tt (set_mem w (move (w_mem w) src dst n))
            else UB UOverlap).
(** core::ptr::copy of [n] bytes (memmove). *)
Definition copy_bytes (src dst n : N) : M world unit :=
  check_ref src n 1 ;;; check_ref dst n 1 ;;;
  (fun w => Ok tt (set_mem w (move (w_mem w) src dst n))).
(** slice::fill(0) on [n] bytes. *)
Definition fill_zero (a n : N) : M world unit :=
  check_ref a n 1 ;;; (fun w => Ok tt (set_mem w (fill (w_mem w) a n (By 0)))).

(** Plain [a + b], [a * b] on usize. *)
Definition padd {S} (a b : N) : M S N := if a + b <? W then ret (a + b) else undef UArith.
Definition pmul {S} (a b : N) : M S N := if a * b <? W then ret (a * b) else undef UArith.

(** ** The global allocator *)

Definition disjoint_from (a n : N) (b : block) : bool :=
  (a + n <=? b_base b) || (b_base b + b_size b <=? a).
(** A correct answer of the allocator: non-null, aligned, inside the address space, not
    overlapping any live allocation. Every other answer is treated as a failure. *)
Definition valid_answer (bl : list block) (a size align : N) : bool :=
  negb (a =? 0) && (a mod align =? 0) && (a + size <? W) && forallb (disjoint_from a size) bl.

Definition block_eqb (a size align : N) (b : block) : bool :=
  (b_base b =? a) && (b_size b =? size) && (b_align b =? align) && b_heap b.
Definition is_block (bl : list block) (a size align : N) : bool := existsb (block_eqb a size align) bl.
Definition del_block (bl : list block) (a : N) : list block :=
  filter (fun b => negb (b_base b =? a)) bl.

(** std::alloc::alloc: 0 is the null pointer. Zero-size requests are undefined behaviour
    (GlobalAlloc contract). Fresh memory is uninitialised. *)
Definition alloc (size align : N) : M world N := fun w =>
  if size =? 0 then UB UZeroAlloc else
  match w_alloc w (w_tick w) size align with
  | Some a =>
      if valid_answer (w_blocks w) a size align then
        Ok a (mkW (fill (w_mem w) a size Un) (mkB a size align true :: w_blocks w)
                  (w_alloc w) (S (w_tick w)) (w_log w ++ [EAlloc a size align]))
      else Ok 0 (tick w)
  | None => Ok 0 (tick w)
  end.

(** std::alloc::dealloc: the block must be live and the layout must match. *)
Definition dealloc (a size align : N) : M world unit := fun w =>
  if is_block (w_blocks w) a size align then
    Ok tt (add_log (set_blocks w (del_block (w_blocks w) a)) [EDealloc a size align])
  else UB UDealloc.

(** std::alloc::realloc: contents up to the smaller size are preserved; on failure (null) the old
    block stays as it is. *)
Definition realloc (a size align newsize : N) : M world N := fun w =>
  if newsize =? 0 then UB UZeroAlloc else
  if negb (is_block (w_blocks w) a size align) then UB UDealloc else
  match w_alloc w (w_tick w) newsize align with
  | Some a' =>
      let rest := del_block (w_blocks w) a in
      if valid_answer rest a' newsize align then
        let n := N.min size newsize in
        Ok a' (mkW (fun x => if (a' <=? x) && (x <? a' + newsize)
                             then (if x <? a' + n then w_mem w (a + (x - a')) else Un)
                             else w_mem w x)
                   (mkB a' newsize align true :: rest)
                   (w_alloc w) (S (w_tick w)) (w_log w ++ [ERealloc a size align a' newsize]))
      else Ok 0 (tick w)
  | None => Ok 0 (tick w)
  end.
