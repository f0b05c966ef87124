(** SessModel.v - programs that keep the iterator of take_elems, and the elements taken from it, while
    they do other things: `let mut it = seq.take_elems(); ... it.next() ... other.push(...) ...`. The
    elements are Owned values like any other (seq.rs:1298-1312: next() returns Owned::from_raw of the
    element's address); every operation of Program.v works on them. *)
From Verif Require Export Program.

(** A mutable borrow of a sequence by take_elems (seq.rs:904-917, `pub fn take_elems(&mut self) ->
    OwnedElems<'_, T>`): the number of the sequence, its type and indexing mode, its fields as
    take_elems left them (nobody can use the sequence while it is borrowed), the iterator (None: dropped
    or forgotten), and the numbers under which the program will hold the elements that have not been
    taken yet. Simplification: these numbers are chosen at the start, one for each element. *)
Record session := mkX {
  x_h : nat; x_t : vty; x_chk : bool; x_s : sq; x_it : option iter; x_todo : list nat }.

Inductive xop :=
| XOp (o : op)                    (* any operation of Program.v *)
| XBegin (h : nat)                (* let it = h.take_elems() *)
| XNext (k : nat)                 (* it.next() on the k-th iterator; the element is kept in a variable *)
| XLen (k : nat)                  (* it.len() *)
| XEnd (k : nat) (keep : bool)    (* drop(it), mem::forget(it) if [keep] *)
| XUnlock (k : nat).              (* the borrow of the sequence has ended; no code runs *)

Definition xconfig : Type := world * list slot * list (option session).

(** While the sequence is borrowed its slot is [SDead]: the program cannot use it. *)
Definition xexec (o : xop) : xconfig -> res xconfig out := fun '(w, sl, xs) =>
  match o with
  | XOp o =>
      match exec o (w, sl) with
      | Ok r (w', sl') => Ok r (w', sl', xs)
      | Panic (w', sl') => Panic (w', sl', xs)
      | UB u => UB u
      end
  (* seq.rs:904-917 *)
  | XBegin h =>
      match nth_error sl h with
      | Some (SSeq t chk s) =>
          match take_elems t chk (w, s) with
          | Ok it (w', s') =>
              let ids := seq (length sl) (N.to_nat (it_len it)) in
              Ok OutUnit (w', update sl h SDead ++ repeat SDead (length ids),
                          xs ++ [Some (mkX h t chk s' (Some it) ids)])
          | Panic (w', s') => Panic (w', update sl h (SSeq t chk s'), xs)
          | UB u => UB u
          end
      | _ => UB UType
      end
  (* seq.rs:1302-1312 *)
  | XNext k =>
      match nth_error xs k with
      | Some (Some (mkX h t chk s (Some it) todo)) =>
          match iter_next t it w with
          | Ok (None, it') w' => Ok (OutBool false) (w', sl, update xs k (Some (mkX h t chk s (Some it') todo)))
          | Ok (Some a, it') w' =>
              match todo with
              | i :: todo' =>
                  Ok (OutBool true) (w', update sl i (SOwn t a), update xs k (Some (mkX h t chk s (Some it') todo')))
              | [] => UB UType
              end
          | Panic w' => Panic (w', sl, xs)
          | UB u => UB u
          end
      | _ => UB UType
      end
  (* seq.rs:1326-1330 *)
  | XLen k =>
      match nth_error xs k with
      | Some (Some (mkX h t chk s (Some it) todo)) => Ok (OutNum (iter_len it)) (w, sl, xs)
      | _ => UB UType
      end
  (* seq.rs:1332-1340 *)
  | XEnd k keep =>
      match nth_error xs k with
      | Some (Some (mkX h t chk s (Some it) todo)) =>
          match (if keep : bool then ret tt else owned_elems_drop t it) w with
          | Ok _ w' => Ok OutUnit (w', sl, update xs k (Some (mkX h t chk s None [])))
          | Panic w' => Panic (w', sl, update xs k (Some (mkX h t chk s None [])))
          | UB u => UB u
          end
      | _ => UB UType
      end
  | XUnlock k =>
      match nth_error xs k with
      | Some (Some (mkX h t chk s None todo)) => Ok OutUnit (w, update sl h (SSeq t chk s), update xs k None)
      | _ => UB UType
      end
  end.
