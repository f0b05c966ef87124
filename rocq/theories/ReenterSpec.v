(** ReenterSpec.v - what a program means in which user code uses the crate while an operation of the crate
    is running: every operation does exactly what it does on its own. *)
From Verif Require Export ProgSpec ReenterModel.

(** [shuffle l l' r]: [r] consists of [l] and [l'], each in its order. *)
Inductive shuffle {A} : list A -> list A -> list A -> Prop :=
| Sh_nil : shuffle [] [] []
| Sh_left : forall x l l' r, shuffle l l' r -> shuffle (x :: l) l' (x :: r)
| Sh_right : forall x l l' r, shuffle l l' r -> shuffle l (x :: l') (x :: r).

(** The events that are calls of user code: a destructor, Clone::clone, a closure or Default::default,
    Iterator::next. *)
Definition user_call (e : event) : bool :=
  match e with EDrop _ | EClone _ | ECall _ | ENext => true | _ => false end.
Definition user_calls (evs : list event) : list event := filter user_call evs.
Definition calls (evs : list event) : nat := length (user_calls evs).

(** The values user code can reach while [o] runs: all others than those [o] moves, borrows or changes. *)
Definition reachable (σ : list aval) (o : op) : list aval := kill_vals (with_room ADead o σ) (mentions o).
(** What is lost for good: a value given to mem::forget, the storage of a VBox::new that panics. *)
Definition lost (o : op) (r : outcome) : nat :=
  match o, r with OForget _, Done _ | ONewBox _ _, Panicked => 1%nat | _, _ => 0%nat end.

(** The operations that build an object, from which initializer, of which type. *)
Inductive builds (σ : list aval) : op -> vty -> pinit -> Prop :=
| Bu_box : forall t p, builds σ (ONewBox t p) t p
| Bu_owned : forall t p, builds σ (ONewOwned t p) t p
| Bu_push : forall h p t chk vs old, nth_error σ h = Some (ASeq t chk vs old) -> builds σ (OPush h p) t p.
(** [own_calls σ o r evs]: which user code [o] itself calls, in which order. An operation that builds an
    object runs the initializer; if it panics it may be that the initializer was only dropped. All others run
    destructors only. *)
Inductive own_calls (σ : list aval) : op -> outcome -> list event -> Prop :=
| K_run : forall o r evs t p i, builds σ o t p -> den σ t p i -> user_calls evs = user_calls (fst (irun t i)) -> own_calls σ o r evs
| K_unused : forall o evs t p i, builds σ o t p -> den σ t p i -> user_calls evs = user_calls (idrop t i) -> own_calls σ o Panicked evs
| K_other : forall o r evs, (forall t p, ~ builds σ o t p) -> user_calls evs = map EDrop (drops_of evs) -> own_calls σ o r evs.

(** [ustep σ u r σ' evs n]: the operation [o] itself ends exactly as it would alone ([astep]), having
    caused the events [evo] and called just the user code it calls alone; the user code that ran during it (one entry of the script for each call of user
    code in [evo]) did exactly what it does alone on the values it can reach, causing [evu]; afterwards
    the values of [o] are as [o] left them and the others as user code left them. [n] counts losses. *)
Inductive ustep : list aval -> uop -> outcome -> list aval -> list event -> nat -> Prop :=
| U_op : forall σ o script r σo evo rs σu evu nu evs,
    astep σ o r σo (drops_of evo) -> own_calls σ o r evo ->
    usteps (reachable σ o) (concat (firstn (calls evo) script)) rs σu evu nu ->
    shuffle evo evu evs ->
    ustep σ (UOp o script) r (merge ADead (own_handles o (length σ)) σo σu) evs (lost o r + nu)
with usteps : list aval -> list uop -> list outcome -> list aval -> list event -> nat -> Prop :=
| U_nil : forall σ, usteps σ [] [] σ [] 0
| U_cons : forall σ u r σ1 ev1 n1 us rs σ2 ev2 n2,
    ustep σ u r σ1 ev1 n1 -> usteps σ1 us rs σ2 ev2 n2 -> usteps σ (u :: us) (r :: rs) σ2 (ev1 ++ ev2) (n1 + n2).

(** Which operations with user code safe Rust allows: the operation itself must be allowed, and what
    user code does must be allowed on the values it can reach, whatever happened before. *)
Inductive uallowed : list aval -> uop -> Prop :=
| UL_op : forall σ o script, allowed σ o -> uallowed_all (reachable σ o) (concat script) -> uallowed σ (UOp o script)
with uallowed_all : list aval -> list uop -> Prop :=
| UL_nil : forall σ, uallowed_all σ []
| UL_cons : forall σ u us, uallowed σ u ->
    (forall r σ' evs n, ustep σ u r σ' evs n -> uallowed_all σ' us) -> uallowed_all σ (u :: us).

(** A whole program: its operations one after the other, panics are caught. The result is the outcome of
    each operation. *)
Fixpoint run_u (us : list uop) (c : config) : res config (list outcome) :=
  match us with
  | [] => Ok [] c
  | u :: r =>
      match exec_u u c with
      | Ok x c' => match run_u r c' with Ok l c2 => Ok (Done x :: l) c2 | Panic c2 => Panic c2 | UB e => UB e end
      | Panic c' => match run_u r c' with Ok l c2 => Ok (Panicked :: l) c2 | Panic c2 => Panic c2 | UB e => UB e end
      | UB e => UB e
      end
  end.
(** The program contains a VBox::new, possibly in user code. *)
Fixpoint makes_box (u : uop) : bool :=
  match u with
  | UOp o script => match o with ONewBox _ _ => true | _ => existsb (existsb makes_box) script end
  end.
