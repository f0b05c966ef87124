(** Layout.v - layout computation: varlen/src/macro_support.rs and the calculate_layout methods. *)
From Verif Require Export Types.

(** macro_support.rs:14-37 [cat_array_field_cautious]::<T>(array_len, size). *)
Definition cat_array_field_cautious (f : fty) (array_len size : N) : option (N * N * N) :=
  match checked_add size (f_align f - 1) with
  | None => None
  | Some size =>
      let offset := mask_align size (f_align f) in
      match checked_mul (f_size f) array_len with
      | None => None
      | Some array_size =>
          match checked_add offset array_size with
          | None => None
          | Some size => Some (offset, array_len, size)
          end
      end
  end.

(** macro_support.rs:40-53 [cat_array_field_fast]::<T>(array_len, size). *)
Definition cat_array_field_fast (f : fty) (array_len size : N) : N * N * N :=
  let size := wrapping_add size (f_align f - 1) in
  let offset := mask_align size (f_align f) in
  let array_size := wrapping_mul (f_size f) array_len in
  (offset, array_len, wrapping_add offset array_size).

(** [self.len] of an Array header, [as_usize] (array.rs:137,392-448). All length types are
    unsigned with at most 64 bits, so as_usize keeps the value. *)
Definition load_len (k : lenk) (a : N) : M world N :=
  bs <- load a (len_size k) (len_size k) ;;
  match dec_le bs with Some n => ret n | None => undef UUninit end.

(** [let lengths = (&self.len1, &self.len2, ...)] and the reads done by the length functions
    (varlen_macro/src/lib.rs:349-353, 291-296). *)
Definition load_ctrls (fs : flds) (a : N) : M world (list (list cell)) :=
  mapM (fun '(off, f) => load (wrapping_add a off) (f_size f) (f_align f)) (ctrl_fields fs).

(** Calling a length function (varlen_macro/src/lib.rs:291-297). The length expression is client code,
    a const fn: it has no effects, but it may panic (index out of bounds, division by zero, overflow in
    a debug build). A value that is no usize stands for a panic. *)
Definition len_call (n : N) : M world N := if n <? W then ret n else panic.

(** VarLen::calculate_layout. lib.rs:725 (FixedLen), array.rs:135-144 (Array), newtype.rs:194
    (newtype), tuple.rs:163-172 (tuple), varlen_macro/src/lib.rs:348-365 (struct).
    [calc_tail] is the chain of [let (off, layout, size) = cat_field_fast(...)] statements, with
    macro_support.rs:117-134 [cat_field_fast] written out at the [FVar] case. *)
Fixpoint calc_layout (t : vty) (a : N) {struct t} : M world lay :=
  match t with
  | TFixed f => ret (LyFix (f_size f))
  | TArray f k =>
      n <- load_len k a ;;
      let '(off, n, size) := cat_array_field_fast f n (len_size k) in
      ret (LyArr off n size)
  | TNew t => calc_layout t a
  | TRec _ hs _ fs =>
      cs <- load_ctrls fs a ;;
      r <- calc_tail fs cs a hs ;;
      ret (LyRec (snd r) (fst r))
  end
with calc_tail (fs : flds) (cs : list (list cell)) (a size : N) {struct fs} : M world (list (N * lay) * N) :=
  match fs with
  | FNil => ret ([], size)
  | FNormal _ _ r | FLength _ _ r => calc_tail r cs a size
  | FVar t r =>
      let offset := mask_align (wrapping_add size (valign t - 1)) (valign t) in
      check_ref (wrapping_add a offset) (head_size t) (head_align t) ;;;
      layout <- calc_layout t (wrapping_add a offset) ;;
      let size := wrapping_add offset (lay_size layout) in
      q <- calc_tail r cs a size ;;
      ret ((offset, layout) :: fst q, snd q)
  | FArr f lf r =>
      n <- len_call (lf cs) ;;
      let '(offset, n, size) := cat_array_field_fast f n size in
      q <- calc_tail r cs a size ;;
      ret ((offset, LyLen n) :: fst q, snd q)
  end.
