(** FineSpec.v - threads as in ThreadSpec.v, interleaved at every single access to memory and every single
    call of the allocator (instead of whole operations). Used to state the second part of C66. *)
From Verif Require Export ThreadSpec.

(** ** operations as sequences of machine accesses *)
(** The accesses of the machine (Machine.v; the bump arena of Boxes.v). *)
Inductive prim :=
| MEmit (e : event)
| MRef (a n al : N)
| MLoad (a n al : N)
| MStore (a al : N) (bs : list cell)
| MCopy (src dst n al : N)
| MCopyBytes (src dst n : N)
| MFillZero (a n : N)
| MAlloc (size align : N)
| MBump (size align : N)
| MDealloc (a size align : N)
| MRealloc (a size align ns : N).
Definition ans (p : prim) : Type :=
  match p with
  | MLoad _ _ _ => list cell
  | MAlloc _ _ | MBump _ _ | MRealloc _ _ _ _ => N
  | _ => unit
  end.
Definition perform (p : prim) : M world (ans p) :=
  match p with
  | MEmit e => emit e
  | MRef a n al => check_ref a n al
  | MLoad a n al => load a n al
  | MStore a al bs => store a al bs
  | MCopy src dst n al => copy_nonoverlapping src dst n al
  | MCopyBytes src dst n => copy_bytes src dst n
  | MFillZero a n => fill_zero a n
  | MAlloc size align => alloc size align
  | MBump size align => bump_alloc size align
  | MDealloc a size align => dealloc a size align
  | MRealloc a size align ns => realloc a size align ns
  end.
(** The bytes an access reads, and those it writes (or gives back). *)
Definition within (x a n : N) : Prop := a <= x < a + n.
Definition reads (p : prim) (x : N) : Prop :=
  match p with
  | MRef a n _ | MLoad a n _ => within x a n
  | MCopy src _ n _ | MCopyBytes src _ n => within x src n
  | MRealloc a size _ _ => within x a size
  | _ => False
  end.
Definition writes (p : prim) (x : N) : Prop :=
  match p with
  | MStore a _ bs => within x a (len bs)
  | MCopy _ dst n _ | MCopyBytes _ dst n => within x dst n
  | MFillZero a n | MDealloc a n _ | MRealloc a n _ _ => within x a n
  | _ => False
  end.

(** Code: accesses, one after the other; what comes next depends on the answers (None: the access panicked).
    At the end it has returned, panicked, or run into undefined behaviour without an access. *)
Inductive code (X A : Type) :=
| CRet (a : A) (x : X)
| CPanic (x : X)
| CUB (u : ub)
| CDo (p : prim) (k : option (ans p) -> code X A).
Arguments CRet {X A}. Arguments CPanic {X A}. Arguments CUB {X A}. Arguments CDo {X A}.
(** Running it without interruption. *)
Fixpoint run {X A} (c : code X A) (w : world) : res (world * X) A :=
  match c with
  | CRet a x => Ok a (w, x)
  | CPanic x => Panic (w, x)
  | CUB u => UB u
  | CDo p k => match perform p w with
               | Ok r w' => run (k (Some r)) w'
               | Panic w' => run (k None) w'
               | UB u => UB u
               end
  end.

(** ** threads *)
(** A thread between two operations, or in the middle of one: the operation, the code that remains, and the
    events it has caused so far. *)
Inductive doing := Idle | Busy (o : op) (c : code (list slot) out) (es : list event).
Record fworker := mkFw { fw_wk : worker; fw_now : doing }.

(** [fine w ts tr]: threads were started and began operations that safe Rust allows them; the accesses of all
    operations were executed in any interleaving. Any code will do that, without interruption, does what
    the operation does ([exec], Program.v). *)
Inductive fine : world -> list fworker -> list (nat * action) -> Prop :=
| F_start : forall w, w_blocks w = [] -> fine w [] []
| F_spawn : forall w ts tr, fine w ts tr -> fine w (ts ++ [mkFw (mkWk [] [] 0) Idle]) tr
| F_begin : forall w ts tr i sl σ n o c, fine w ts tr ->
    nth_error ts i = Some (mkFw (mkWk sl σ n) Idle) -> allowed σ o -> (forall w, run c w = exec o (w, sl)) ->
    fine w (replace_nth ts i (mkFw (mkWk sl σ n) (Busy o c []))) tr
| F_access : forall w ts tr i k o p f es w' e es', fine w ts tr ->
    nth_error ts i = Some (mkFw k (Busy o (CDo p f) es)) ->
    match e with Some r => perform p w = Ok r w' | None => perform p w = Panic w' end ->
    w_log w' = w_log w ++ es' ->
    fine w' (replace_nth ts i (mkFw k (Busy o (f e) (es ++ es')))) tr
| F_return : forall w ts tr i sl σ n o r sl' es σ' d, fine w ts tr ->
    nth_error ts i = Some (mkFw (mkWk sl σ n) (Busy o (CRet r sl') es)) -> astep σ o (Done r) σ' d ->
    fine w (replace_nth ts i (mkFw (mkWk sl' σ' (lost o (Done r) n)) Idle)) (tr ++ [(i, (o, Done r, es))])
| F_panic : forall w ts tr i sl σ n o sl' es σ' d, fine w ts tr ->
    nth_error ts i = Some (mkFw (mkWk sl σ n) (Busy o (CPanic sl') es)) -> astep σ o Panicked σ' d ->
    fine w (replace_nth ts i (mkFw (mkWk sl' σ' (lost o Panicked n)) Idle)) (tr ++ [(i, (o, Panicked, es))]).
