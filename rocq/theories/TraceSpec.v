(** TraceSpec.v - what it means to use an allocator correctly, in terms of the calls alone (the contract
    of GlobalAlloc: alloc, realloc, dealloc). *)
From Verif Require Export Machine DropPanic.

(** A live allocation: address, size, alignment. *)
Definition allocation : Type := N * N * N.
(** A layout one may ask for: a power of two as alignment, a size that is not zero and, rounded up to
    the alignment, at most isize::MAX. *)
Definition request_ok (size align : N) : Prop := 0 < size /\ (exists k, align = 2 ^ k) /\ size + (align - 1) <= ISIZE_MAX.
(** An answer that is storage for [size] bytes: not null, aligned, inside the address space and apart
    from every live allocation. *)
Definition answer_ok (live : list allocation) (a size align : N) : Prop :=
  0 < a /\ a mod align = 0 /\ a + size < W /\
  forall b s al, In (b, s, al) live -> a + size <= b \/ b + s <= a.

(** [heap_calls live evs live']: the calls in [evs] (other events do not matter) are correct when the
    allocations [live] exist, and leave the allocations [live']. Every dealloc and realloc names an
    allocation that exists, with the size and alignment it was requested with. *)
Inductive heap_calls : list allocation -> list event -> list allocation -> Prop :=
| HC_none : forall L, heap_calls L [] L
| HC_drop : forall L v es L', heap_calls L es L' -> heap_calls L (EDrop v :: es) L'
| HC_clone : forall L v es L', heap_calls L es L' -> heap_calls L (EClone v :: es) L'
| HC_call : forall L i es L', heap_calls L es L' -> heap_calls L (ECall i :: es) L'
| HC_next : forall L es L', heap_calls L es L' -> heap_calls L (ENext :: es) L'
| HC_alloc : forall L a s al es L', request_ok s al -> answer_ok L a s al ->
    heap_calls ((a, s, al) :: L) es L' -> heap_calls L (EAlloc a s al :: es) L'
| HC_dealloc : forall L1 L2 a s al es L', heap_calls (L1 ++ L2) es L' ->
    heap_calls (L1 ++ (a, s, al) :: L2) (EDealloc a s al :: es) L'
| HC_realloc : forall L1 L2 a s al a' s' es L', request_ok s' al -> answer_ok (L1 ++ L2) a' s' al ->
    heap_calls ((a', s', al) :: L1 ++ L2) es L' -> heap_calls (L1 ++ (a, s, al) :: L2) (ERealloc a s al a' s' :: es) L'.

(** The heap allocations of a world. *)
Definition heap (w : world) : list allocation :=
  map (fun b => (b_base b, b_size b, b_align b)) (filter b_heap (w_blocks w)).

(** ** Executions of whole programs *)

(** Any sequence of operations that each return or panic (the panic is caught). [step] is [exec]
    (Program.v), [xexec] (SessModel.v) or [exec_s] (StrModel.v). *)
Inductive runs {O R C} (step : O -> C -> res C R) (c : C) : C -> Prop :=
| RU_here : runs step c c
| RU_done : forall c1 o r c2, runs step c c1 -> step o c1 = Ok r c2 -> runs step c c2
| RU_panic : forall c1 o c2, runs step c c1 -> step o c1 = Panic c2 -> runs step c c2.
(** The same with destructors that panic ([exec_p], DropPanic.v). *)
Inductive runs_p (dp : list cell -> bool) (c : config) : config -> Prop :=
| RP_here : runs_p dp c c
| RP_ok : forall c1 o r c2, runs_p dp c c1 -> exec_p dp o c1 = DOk r c2 -> runs_p dp c c2
| RP_pan : forall c1 o c2, runs_p dp c c1 -> exec_p dp o c1 = DPanic c2 -> runs_p dp c c2.

Definition allocs (es : list event) : nat := length (filter (fun e => match e with EAlloc _ _ _ => true | _ => false end) es).
Definition deallocs (es : list event) : nat := length (filter (fun e => match e with EDealloc _ _ _ => true | _ => false end) es).
(** [es] makes an allocation at the address [a]. *)
Definition gives (a : N) (es : list event) : Prop :=
  exists e, In e es /\ match e with EAlloc a' _ _ => a' = a | ERealloc _ _ _ a' _ => a' = a | _ => False end.
(** [e] gives the allocation at the address [a] back. *)
Definition takes_back (a : N) (e : event) : Prop :=
  match e with EDealloc a' _ _ => a' = a | ERealloc a' _ _ _ _ => a' = a | _ => False end.
