(** ParModel.v - threads that share the objects of a program. The crate has no concurrency of its own
    (no Send or Sync impl, no atomics); a client can borrow several objects, or several parts of one
    object, at the same time (iter_mut seq.rs:731, as_mut vbox.rs:84 and owned.rs:146, muts()
    varlen_macro/src/lib.rs:429-441 and tuple.rs:141-151) and hand the references to
    threads (std::thread::scope). Each call of the crate is one step; [C56_footprint] (PropsPar.v) says
    that a call reads and writes only bytes of the object it is given. *)
From Verif Require Export Program.

(** What a thread does with its reference: read the whole object through refs() ..., assign to a leaf
    through muts() ... (varlen_macro/src/lib.rs:429-452, tuple.rs:132-151), try_set_layout_controllers
    (varlen_macro/src/lib.rs:454). *)
Inductive cmd :=
| CRead
| CAssign (q : path) (new : list cell)
| CControllers (news : list (list cell)).
(** The reference is the type and address of the object; it is not evaluated again. The calls are those
    of Program.v (ORead, OAssign, OControllers), modelled in Access.v. *)
Definition run_cmd (t : vty) (a : N) (c : cmd) : M world out :=
  match c with
  | CRead => v <- view t a ;; ret (OutVal v)
  | CAssign q new => assign t a q new ;;; ret OutUnit
  | CControllers news =>
      match t with
      | TRec KStruct _ _ fs => b <- try_set_layout_controllers fs a (fun _ => false) news ;; ret (OutBool b)
      | _ => undef UType
      end
  end.
(** A thread (client code): its reference, the commands it still has to run, the results so far. A panic ends it. *)
Record thread := mkTh { th_ty : vty; th_addr : N; th_todo : list cmd; th_outs : list out; th_dead : bool }.
(** Thread number [i] is scheduled for one step. *)
Definition par_step (i : nat) : world * list thread -> res (world * list thread) unit := fun '(w, ths) =>
  match nth_error ths i with
  | Some (mkTh t a (c :: r) outs false) =>
      match run_cmd t a c w with
      | Ok o w' => Ok tt (w', update ths i (mkTh t a r (outs ++ [o]) false))
      | Panic w' => Ok tt (w', update ths i (mkTh t a r outs true))
      | UB u => UB u
      end
  | _ => Ok tt (w, ths)
  end.
(** A schedule: any sequence of thread numbers. *)
Fixpoint par_run (sched : list nat) : M (world * list thread) unit :=
  match sched with
  | [] => ret tt
  | i :: r => par_step i ;;; par_run r
  end.
