(** ThreadSpec.v - programs with several threads, each of which owns its own boxes, owned values and
    sequences and does anything the safe API allows with them; they share the memory and the global
    allocator. Used to state C66. (VBox, Owned and Seq are neither Send nor Sync: the pointer they consist
    of is not, vbox.rs:35, owned.rs:69, seq.rs:425; so no value changes its thread. References to the
    objects inside may be shared, that is C56.) *)
From Verif Require Export PlaceSpec.

(** One operation of a thread as an observer sees it: the operation, its outcome, and the events (destructor
    calls, clones, calls of client closures, calls of the allocator) it caused. *)
Definition action : Type := op * outcome * list event.
(** How many allocations may have lost their owner: VBox::new whose initializer panicked, mem::forget. *)
Definition lost (o : op) (r : outcome) (n : nat) : nat :=
  match o, r with
  | ONewBox _ _, Panicked => S n
  | OForget _, Done _ => S n
  | _, _ => n
  end.
(** A thread: the values it holds, what they are according to the functional account (ProgSpec.v), and the
    number of allocations it may have lost. *)
Record worker := mkWk { wk_slots : list slot; wk_vals : list aval; wk_lost : nat }.

(** [threads w ts tr]: threads were started (at any time, with no values), and executed operations that safe
    Rust allows each of them in its own state, in any order; each returned or panicked (and was caught).
    Now the world is [w], the threads are [ts]; [tr] is what happened: which thread, which action. *)
Inductive threads : world -> list worker -> list (nat * action) -> Prop :=
| T_start : forall w, w_blocks w = [] -> threads w [] []
| T_spawn : forall w ts tr, threads w ts tr -> threads w (ts ++ [mkWk [] [] 0]) tr
| T_step : forall w ts tr i sl σ n o r w' sl' σ' d es, threads w ts tr ->
    nth_error ts i = Some (mkWk sl σ n) -> allowed σ o ->
    ends (exec o (w, sl)) r w' sl' -> astep σ o r σ' d -> w_log w' = w_log w ++ es ->
    threads w' (replace_nth ts i (mkWk sl' σ' (lost o r n))) (tr ++ [(i, (o, r, es))]).
(** What thread number [i] did. *)
Definition actions (i : nat) (tr : list (nat * action)) : list action :=
  map snd (filter (fun e => Nat.eqb (fst e) i) tr).

(** [alone w sl σ n tr]: a program with one thread, started with no values and an empty heap. *)
Inductive alone : world -> list slot -> list aval -> nat -> list action -> Prop :=
| A1_start : forall w, w_blocks w = [] -> alone w [] [] 0 []
| A1_step : forall w sl σ n tr o r w' sl' σ' d es, alone w sl σ n tr -> allowed σ o ->
    ends (exec o (w, sl)) r w' sl' -> astep σ o r σ' d -> w_log w' = w_log w ++ es ->
    alone w' sl' σ' (lost o r n) (tr ++ [(o, r, es)]).
(** [meanwhile j w ts w' ts']: from a state with world [w] and threads [ts], threads other than number [j]
    were started or executed operations; then the state is [w'], [ts']. *)
Inductive meanwhile (j : nat) (w : world) (ts : list worker) : world -> list worker -> Prop :=
| M_start : meanwhile j w ts w ts
| M_spawn : forall w' ts', meanwhile j w ts w' ts' -> meanwhile j w ts w' (ts' ++ [mkWk [] [] 0])
| M_step : forall w' ts' i sl σ n o r w2 sl2 σ2 d, meanwhile j w ts w' ts' -> i <> j ->
    nth_error ts' i = Some (mkWk sl σ n) -> allowed σ o -> ends (exec o (w', sl)) r w2 sl2 -> astep σ o r σ2 d ->
    meanwhile j w ts w2 (replace_nth ts' i (mkWk sl2 σ2 (lost o r n))).
