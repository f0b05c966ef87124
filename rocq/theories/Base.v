(** Base.v - machine integers and bytes.

    The model fixes a 64-bit target ([usize] has 64 bits) and little-endian integers.
    These two facts about the target are part of the trusted base (DESIGN.md). *)
From Coq Require Export List NArith Lia Bool.
Export ListNotations.
Open Scope N_scope.

(** 2^64: the number of [usize] values; [usize::MAX] is [W - 1]. *)
Definition W : N := 2 ^ 64.
(** [isize::MAX], the bound of core::alloc::Layout::from_size_align (Rust >= 1.65). *)
Definition ISIZE_MAX : N := 2 ^ 63 - 1.

(** usize::checked_add / usize::checked_mul. *)
Definition checked_add (a b : N) : option N := if a + b <? W then Some (a + b) else None.
Definition checked_mul (a b : N) : option N := if a * b <? W then Some (a * b) else None.
(** usize::wrapping_add / wrapping_mul / wrapping_sub. *)
Definition wrapping_add (a b : N) : N := (a + b) mod W.
Definition wrapping_mul (a b : N) : N := (a * b) mod W.
Definition wrapping_sub (a b : N) : N := (a + (W - b mod W)) mod W.
(** [x & 0usize.wrapping_sub(align)], the rounding mask used in
    varlen/src/macro_support.rs:27,48,104,126 and varlen/src/seq.rs:486. *)
Definition mask_align (x align : N) : N := N.land x (wrapping_sub 0 align).

(** core::alloc::Layout::from_size_align(size, align).is_ok(): the alignment is a power of two and
    size rounded up to the alignment does not exceed the limit [lim]
    (isize::MAX since Rust 1.65, usize::MAX before). *)
Definition from_size_align_lim (lim size align : N) : bool :=
  N.eqb align (2 ^ N.log2 align) && (size + (align - 1) <=? lim).
Definition from_size_align (size align : N) : bool := from_size_align_lim ISIZE_MAX size align.

(** A memory cell: uninitialised, or an initialised byte. *)
Inductive cell := Un | By (b : N).

(** Number of cells of a list, as a machine-size number. *)
Definition len {A} (l : list A) : N := N.of_nat (length l).

(** Little-endian encoding of an integer in [k] bytes, and its decoding
    ([None] if a byte is uninitialised). *)
Fixpoint enc_le (k : nat) (n : N) : list cell :=
  match k with
  | O => []
  | S k' => By (n mod 256) :: enc_le k' (n / 256)
  end.
Fixpoint dec_le (l : list cell) : option N :=
  match l with
  | [] => Some 0
  | Un :: _ => None
  | By b :: r => match dec_le r with Some n => Some (b + 256 * n) | None => None end
  end.

(** [n] consecutive indices [0 .. n-1] as machine numbers (loop counters). *)
Definition upto (n : N) : list N := map N.of_nat (seq 0 (N.to_nat n)).
