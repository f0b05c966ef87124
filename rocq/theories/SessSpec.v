(** SessSpec.v - what programs with live take_elems iterators mean, in terms of values only. *)
From Verif Require Export SessModel ProgSpec.

(** A sequence that is borrowed by take_elems: which one, its element type and indexing mode, the
    offsets that were in use ([a_old], see ProgSpec.v), the numbers of all its elements, the elements
    still in the iterator with their numbers, and whether the iterator still exists. *)
Record asession := mkA {
  a_h : nat; a_t : vty; a_chk : bool; a_old : list N; a_ids : list nat; a_left : list (nat * vval); a_open : bool }.
Definition astate : Type := list aval * list (option asession).

(** What safe Rust allows: the operations of ProgSpec.v on the values the program can use - elements
    taken from iterators are AOwn values, borrowed sequences and elements not yet taken are not
    available. The borrow ends when the iterator and all elements taken from it are gone. *)
Inductive xallowed (σ : list aval) (xs : list (option asession)) : xop -> Prop :=
| XL_op : forall o, allowed σ o -> xallowed σ xs (XOp o)
| XL_begin : forall h t chk vs old, nth_error σ h = Some (ASeq t chk vs old) -> xallowed σ xs (XBegin h)
| XL_next : forall k x, nth_error xs k = Some (Some x) -> a_open x = true -> xallowed σ xs (XNext k)
| XL_len : forall k x, nth_error xs k = Some (Some x) -> a_open x = true -> xallowed σ xs (XLen k)
| XL_end : forall k keep x, nth_error xs k = Some (Some x) -> a_open x = true -> xallowed σ xs (XEnd k keep)
| XL_unlock : forall k x, nth_error xs k = Some (Some x) -> a_open x = false ->
    (forall i, In i (a_ids x) -> nth_error σ i = Some ADead) -> xallowed σ xs (XUnlock k).

(** [xstep (σ, xs) o r (σ', xs') d]: operation, outcome, new state, values destroyed in this order. *)
Inductive xstep (σ : list aval) (xs : list (option asession)) : xop -> outcome -> astate -> list (list cell) -> Prop :=
(* any other operation goes on as if there were no iterators *)
| XS_op : forall o r σ' d, astep σ o r σ' d -> xstep σ xs (XOp o) r (σ', xs) d
(* the elements are the values of the sequence, in order *)
| XS_begin : forall h t chk vs old, nth_error σ h = Some (ASeq t chk vs old) ->
    xstep σ xs (XBegin h) (Done OutUnit)
      (replace_nth σ h ADead ++ repeat ADead (length vs),
       xs ++ [Some (mkA h t chk (old ++ starts t vs 0 ++ [total t vs]) (seq (length σ) (length vs))
                     (combine (seq (length σ) (length vs)) vs) true)]) []
| XS_next : forall k h t chk old ids i v left, nth_error xs k = Some (Some (mkA h t chk old ids ((i, v) :: left) true)) ->
    xstep σ xs (XNext k) (Done (OutBool true))
      (replace_nth σ i (AOwn t v), replace_nth xs k (Some (mkA h t chk old ids left true))) []
| XS_next_none : forall k h t chk old ids, nth_error xs k = Some (Some (mkA h t chk old ids [] true)) ->
    xstep σ xs (XNext k) (Done (OutBool false)) (σ, xs) []
| XS_len : forall k x, nth_error xs k = Some (Some x) -> xstep σ xs (XLen k) (Done (OutNum (len (a_left x)))) (σ, xs) []
(* the elements not taken are destroyed, unless the iterator is forgotten *)
| XS_end : forall k (keep : bool) h t chk old ids left op, nth_error xs k = Some (Some (mkA h t chk old ids left op)) ->
    xstep σ xs (XEnd k keep) (Done OutUnit) (σ, replace_nth xs k (Some (mkA h t chk old ids [] false)))
      (if keep then [] else concat (map (fun p => vdrops t (snd p)) left))
(* the sequence can be used again; it is empty *)
| XS_unlock : forall k h t chk old ids left op, nth_error xs k = Some (Some (mkA h t chk old ids left op)) ->
    xstep σ xs (XUnlock k) (Done OutUnit) (replace_nth σ h (ASeq t chk [] old), replace_nth xs k None) [].

(** States of programs: as [reach] in ProgSpec.v, with any number of iterators alive at any time. *)
Inductive reach_x : world -> list slot -> list (option session) -> list aval -> list (option asession) -> nat -> Prop :=
| RX_start : forall w, w_blocks w = [] -> reach_x w [] [] [] [] 0
| RX_done : forall w sl xs σ ax n o r w' sl' xs' σ' ax' d, reach_x w sl xs σ ax n -> xallowed σ ax o ->
    xexec o (w, sl, xs) = Ok r (w', sl', xs') -> xstep σ ax o (Done r) (σ', ax') d ->
    reach_x w' sl' xs' σ' ax' (match o with XOp (OForget _) => S n | _ => n end)
| RX_panic : forall w sl xs σ ax n o w' sl' xs' σ' ax' d, reach_x w sl xs σ ax n -> xallowed σ ax o ->
    xexec o (w, sl, xs) = Panic (w', sl', xs') -> xstep σ ax o Panicked (σ', ax') d ->
    reach_x w' sl' xs' σ' ax' (match o with XOp (ONewBox _ _) => S n | _ => n end).
