(** ContractSpec.v - the documented contract of the unsafe traits VarLen and Initializer
    (varlen/src/lib.rs:317-330, 399-405, 608-618), and what a container holds, for an arbitrary type.

    An implementor has to say what the type means: which values it has and which bytes represent
    them. Nothing is assumed about that meaning; the contract relates it to the trait items. *)
From Verif Require Export Spec ContractModel.
From Coq Require Export Permutation.

(** ** What an implementation means *)

(** [L] layouts, [I] initializers, [V] values.
    - [m_rep m a v]: the bytes at [a] represent the value [v];
    - [m_size v]: number of bytes (head and tail) of an object with value [v];
    - [m_lay v l]: [l] is a layout of an object with value [v];
    - [m_drops v]: what dropping an object with value [v] does, as events;
    - [m_ok w i]: the initializer [i] can be used in world [w];
    - [m_holds i], [m_frees i]: the memory blocks [i] refers to; the base addresses of those it frees
      when it is used or dropped;
    - [m_makes i]: the value it builds, [None] if building panics; [m_log i]: the events of building;
    - [m_idrop i]: the events of dropping it unused. *)
Record meaning (L I V : Type) := mkMeaning {
  m_rep : (N -> cell) -> N -> V -> Prop;
  m_size : V -> N;
  m_lay : V -> L -> Prop;
  m_drops : V -> list event;
  m_ok : world -> I -> Prop;
  m_holds : I -> list block;
  m_frees : I -> list N;
  m_makes : I -> option V;
  m_log : I -> list event;
  m_idrop : I -> list event }.
Arguments m_rep {L I V}. Arguments m_size {L I V}. Arguments m_lay {L I V}. Arguments m_drops {L I V}.
Arguments m_ok {L I V}. Arguments m_holds {L I V}. Arguments m_frees {L I V}. Arguments m_makes {L I V}.
Arguments m_log {L I V}. Arguments m_idrop {L I V}.

(** From [w] to [w'] the blocks with the given bases were freed, only the [n] bytes at [a] and the
    contents of the freed blocks may have changed, and the events [evs] happened. *)
Definition effect (w w' : world) (a n : N) (bases : list N) (evs : list event) : Prop :=
  (forall x, x < a \/ a + n <= x ->
     (forall b, In b (w_blocks w) -> In (b_base b) bases -> x < b_base b \/ b_base b + b_size b <= x) ->
     w_mem w' x = w_mem w x) /\
  w_blocks w' = without (w_blocks w) bases /\
  w_alloc w' = w_alloc w /\ w_tick w' = w_tick w /\ w_log w' = w_log w ++ evs.

(** Storage for [n] bytes of the type: non-null, aligned to ALIGN, in the address space, live. *)
Definition uplace {L I} (u : impl L I) (bl : list block) (a n : N) : Prop :=
  a <> 0 /\ a mod u_align u = 0 /\ a + n < W /\ live bl a n.
(** A live object with value [v] at [a]: what a [&T] may point to (lib.rs:228-234). *)
Definition uobj_at {L I V} (u : impl L I) (d : meaning L I V) (w : world) (a : N) (v : V) : Prop :=
  uplace u (w_blocks w) a (m_size d v) /\ m_rep d (w_mem w) a v.

(** ** The contract *)

(** The safety sections of lib.rs, clause by clause. *)
Record contract {L I V} (u : impl L I) (d : meaning L I V) : Prop := mkContract {
  (* "ALIGN must be a power of 2" (no type in Rust has an alignment above 2^29), "at least as large
     as align_of::<Self>()" *)
  k_align : pow2 (u_align u);
  k_halign : pow2 (u_halign u) /\ u_halign u <= u_align u;
  (* an object is a head of size_of::<T>() bytes followed by its tail *)
  k_head : forall m a v, m_rep d m a v -> u_hsize u <= m_size d v;
  (* "reports the correct size of the object, including its variable-length tail" *)
  k_size : forall v l, m_lay d v l -> u_lsize u l = m_size d v;
  k_calc : forall w a v, uobj_at u d w a v -> exists l, u_calc u a w = Ok l w /\ m_lay d v l;
  (* an object is its bytes: it can be moved (lib.rs:287-289) *)
  k_move : forall m m' a a' v, m_rep d m a v ->
    (forall k, k < m_size d v -> m' (a' + k) = m (a + k)) -> m_rep d m' a' v;
  (* vdrop, with a layout of the object, drops the object and writes at most to it *)
  k_vdrop : forall w a v l, uobj_at u d w a v -> m_lay d v l ->
    exists w', u_vdrop u a l w = Ok tt w' /\ effect w w' a (m_size d v) [] (m_drops d v);
  (* "if false, vdrop() is a noop, and may be skipped" *)
  k_noop : u_nvdrop u = false -> forall m a v, m_rep d m a v -> m_drops d v = [];
  (* what an initializer refers to is live, and it goes on being usable as long as that is so *)
  k_holds : forall w i, m_ok d w i -> incl (m_holds d i) (w_blocks w) /\
    incl (m_frees d i) (map b_base (m_holds d i));
  k_frame : forall w w' i, m_ok d w i ->
    (forall b, In b (m_holds d i) -> In b (w_blocks w') /\
       forall x, b_base b <= x < b_base b + b_size b -> w_mem w' x = w_mem w x) -> m_ok d w' i;
  (* calculate_layout_cautious may answer None or panic, but it changes nothing *)
  k_cautious : forall w i, m_ok d w i ->
    u_cautious u i w = Panic w \/ exists r, u_cautious u i w = Ok r w;
  (* initialize, with the layout calculate_layout_cautious gave, "doesn't write past offset
     layout.size() of dst"; afterwards "the object T is initialized" and "the layout matches" *)
  k_init : forall w0 w i l D, m_ok d w0 i -> u_cautious u i w0 = Ok (Some l) w0 ->
    m_ok d w i -> uplace u (without (w_blocks w) (m_frees d i)) D (u_lsize u l) ->
    (forall b, In b (m_holds d i) -> apart (b_base b) (b_size b) D (u_lsize u l)) ->
    match m_makes d i with
    | Some v => exists w', u_init u i D l w = Ok tt w' /\
        effect w w' D (u_lsize u l) (m_frees d i) (m_log d i) /\ m_rep d (w_mem w') D v /\ m_lay d v l
    | None => exists w', u_init u i D l w = Panic w' /\
        effect w w' D (u_lsize u l) (m_frees d i) (m_log d i)
    end;
  (* dropping an initializer that was not used *)
  k_idrop : forall w i, m_ok d w i ->
    exists w', u_idrop u i w = Ok tt w' /\ effect w w' 0 0 (m_frees d i) (m_idrop d i) }.

(** No object has size 0 (the crate's containers mishandle such types, C12 and C13). *)
Definition no_zst {L I V} (u : impl L I) (d : meaning L I V) : Prop :=
  (forall m a v, m_rep d m a v -> 0 < m_size d v) /\
  (forall w i l, m_ok d w i -> u_cautious u i w = Ok (Some l) w -> 0 < u_lsize u l).

(** ** What a sequence holds *)

(** Number of units of ALIGN bytes an object occupies, and the places of consecutive objects. *)
Definition uunits (al n : N) : N := (n + (al - 1)) / al.
Fixpoint utotal (al : N) (ns : list N) : N :=
  match ns with [] => 0 | n :: r => uunits al n + utotal al r end.
Fixpoint ustarts (al : N) (ns : list N) (o : N) : list N :=
  match ns with [] => [] | n :: r => o :: ustarts al r (o + uunits al n) end.
(** Bytes of the storage: the elements, and with CheckedIndexing one bit per unit. *)
Definition ustorage (al : N) (chk : bool) (cap : N) : N :=
  cap * al + (if chk then (cap + 7) / 8 else 0).
(** Consecutive values in memory. *)
Fixpoint uvalues {L I V} (u : impl L I) (d : meaning L I V) (m : N -> cell) (base : N) (vs : list V) : Prop :=
  match vs with
  | [] => True
  | v :: r => m_rep d m base v /\ uvalues u d m (base + uunits (u_align u) (m_size d v) * u_align u) r
  end.
(** [s] is a sequence with elements [vs]. *)
Definition ublock {L I} (u : impl L I) (chk : bool) (s : sq) : block :=
  mkB (s_ptr s) (ustorage (u_align u) chk (s_cap s)) (u_align u) true.
Definition useq_at {L I V} (u : impl L I) (d : meaning L I V) (w : world) (chk : bool) (s : sq) (vs : list V) : Prop :=
  s_len s = len vs /\ s_occ s = utotal (u_align u) (map (m_size d) vs) /\ s_occ s <= s_cap s /\
  (((s_cap s = 0 /\ 0 < s_ptr s < W) /\ vs = []) \/
   (0 < s_cap s /\ In (ublock u chk s) (w_blocks w) /\
    ustorage (u_align u) chk (s_cap s) + (u_align u - 1) <= ISIZE_MAX /\
    s_ptr s mod u_align u = 0 /\
    uvalues u d (w_mem w) (s_ptr s) vs /\
    (chk = true -> forall j, j < (s_cap s + 7) / 8 ->
       exists b, w_mem w (s_ptr s + s_cap s * u_align u + j) = By b /\ b < 256))).
(** Bit [o] of the bitmap; the bitmap marks exactly the starts of the elements (the bit at offset()
    may have been set by a push that panicked). *)
Definition ubit (al : N) (w : world) (s : sq) (o : N) : bool :=
  match w_mem w (s_ptr s + s_cap s * al + o / 8) with
  | By b => N.testbit b (o mod 8)
  | Un => false
  end.
Definition umarks {L I V} (u : impl L I) (d : meaning L I V) (w : world) (s : sq) (vs : list V) : Prop :=
  0 < s_cap s -> forall o, o < 8 * ((s_cap s + 7) / 8) -> o <> s_occ s ->
    (ubit (u_align u) w s o = true <-> In o (ustarts (u_align u) (map (m_size d) vs) 0)).
(** The addresses of the elements. *)
Definition uaddrs {L I V} (u : impl L I) (d : meaning L I V) (base : N) (vs : list V) : list N :=
  map (fun o => base + o * u_align u) (ustarts (u_align u) (map (m_size d) vs) 0).
(** The storage of the sequence, if it has any. *)
Definition ustore_base (s : sq) : list N := if s_cap s =? 0 then [] else [s_ptr s].
(** An initializer that may be pushed: usable, and it does not refer to the storage of the sequence
    (safe code cannot: push borrows the sequence mutably). *)
Definition upushable {L I V} (d : meaning L I V) (w : world) (s : sq) (i : I) : Prop :=
  m_ok d w i /\ forall b, In b (m_holds d i) -> ~ In (b_base b) (ustore_base s).

(** The capacity after a growth to at least [need] units. *)
Definition unew_cap (al need cap : N) : N := N.max (N.max need ((32 + al - 1) / al)) (cap * 2).
(** Why a push may be refused before anything is built: there is no layout, or the storage has to
    grow and the new size is too large or the allocator has no memory. *)
Definition urefuses {L I} (u : impl L I) (w : world) (chk : bool) (s : sq) (i : I) : Prop :=
  (forall l, u_cautious u i w <> Ok (Some l) w) \/
  (exists l, u_cautious u i w = Ok (Some l) w /\
    let need := s_occ s + uunits (u_align u) (u_lsize u l) in
    let bytes := ustorage (u_align u) chk (unew_cap (u_align u) need (s_cap s)) in
    s_cap s < need /\
    (ISIZE_MAX < bytes + (u_align u - 1) \/
     forall p, w_alloc w (w_tick w) bytes (u_align u) = Some p ->
       valid_answer (without (w_blocks w) (ustore_base s)) p bytes (u_align u) = false)).
(** The allocator call of a growth, if the storage grew. *)
Definition ugrowth {L I} (u : impl L I) (chk : bool) (s s' : sq) : list event :=
  if s_cap s' =? s_cap s then []
  else [if s_cap s =? 0 then EAlloc (s_ptr s') (ustorage (u_align u) chk (s_cap s')) (u_align u)
        else ERealloc (s_ptr s) (ustorage (u_align u) chk (s_cap s)) (u_align u)
               (s_ptr s') (ustorage (u_align u) chk (s_cap s'))].
(** [s'] did not take over the memory of any block but that of [s]. *)
Definition apart_from (w : world) (s s' : sq) : Prop :=
  forall b, In b (w_blocks w) -> ~ In (b_base b) (ustore_base s) -> ~ In (b_base b) (ustore_base s').

(** ** Boxes of T among the initializers *)

(** A VBox holding [v] at [a] can be used if its object and its storage are live. It refers to that
    one block, which is freed when the object has been moved out or dropped. *)
Definition boxed_meaning {L I V} (u : impl L I) (d : meaning L I V) : meaning L (boxed I V) V :=
  mkMeaning _ _ _ (m_rep d) (m_size d) (m_lay d) (m_drops d)
    (fun w b => match b with
                | Own i => m_ok d w i
                | Moved a v => uobj_at u d w a v /\ In (mkB a (m_size d v) (u_align u) true) (w_blocks w)
                end)
    (fun b => match b with Own i => m_holds d i | Moved a v => [mkB a (m_size d v) (u_align u) true] end)
    (fun b => match b with Own i => m_frees d i | Moved a v => [a] end)
    (fun b => match b with Own i => m_makes d i | Moved _ v => Some v end)
    (fun b => match b with Own i => m_log d i
                         | Moved a v => [EDealloc a (m_size d v) (u_align u)] end)
    (fun b => match b with Own i => m_idrop d i
                         | Moved a v => m_drops d v ++ [EDealloc a (m_size d v) (u_align u)] end).

(** ** Programs over boxes and sequences of one type *)

(** The live boxes and Owned values (whether it is a box, address, value) and the live sequences with their
    elements. *)
Definition hbase {V} (e : bool * N * V) : N := snd (fst e).
Definition stores {V} (ss : list (bool * sq * list V)) : list N :=
  flat_map (fun e => ustore_base (snd (fst e))) ss.
(** The initializer [i] is handed over together with some of the boxes [bx] (those it contains, whose
    storage it will free), [rest] remain: it does not own any other box nor the storage of a sequence. *)
Definition hands_over {L I V} (d : meaning L I V) (w : world) (bx rest : list (bool * N * V))
    (ss : list (bool * sq * list V)) (i : I) : Prop :=
  m_ok d w i /\
  (exists own, Permutation bx (own ++ rest) /\ forall e, In e own -> In (hbase e) (m_frees d i)) /\
  forall p, In p (m_frees d i) -> ~ In p (map hbase rest ++ stores ss).
(** What take_elems and the client of [udrain] drop: the elements that are not forgotten. *)
Fixpoint unforgotten {L I V} (d : meaning L I V) (forget : list bool) (vs : list V) : list event :=
  match forget, vs with
  | b :: forget, v :: vs => (if (b : bool) then [] else m_drops d v) ++ unforgotten d forget vs
  | _, _ => concat (map (m_drops d) vs)
  end.
(** The histories of a program that creates, fills, drains, drops and forgets boxes, Owned values and
    sequences of [T] in any order, catching the panics. The number says how many heap allocations may be
    without an owner among these: those of before, those of forgotten boxes and sequences, and of
    VBox::new whose initializer panicked. (No history takes the elements of a sequence with
    CheckedIndexing: see C19.) *)
Inductive uhist {L I V} (u : impl L I) (d : meaning L I V) :
    world -> list (bool * N * V) -> list (bool * sq * list V) -> nat -> Prop :=
| uh_start w : wf_blocks (w_blocks w) -> uhist u d w [] [] (length (filter b_heap (w_blocks w)))
| uh_box w bx rest ss n i p w' v : uhist u d w bx ss n -> hands_over d w bx rest ss i ->
    uvbox_new u i w = Ok p w' -> m_makes d i = Some v -> uhist u d w' ((true, p, v) :: rest) ss n
| uh_box_panic w bx rest ss n i w' : uhist u d w bx ss n -> hands_over d w bx rest ss i ->
    uvbox_new u i w = Panic w' ->
    uhist u d w' rest ss (match m_makes d i with None => S n | Some _ => n end)
| uh_box_drop w xs p v ys ss n w' : uhist u d w (xs ++ (true, p, v) :: ys) ss n ->
    uvbox_drop u p w = Ok tt w' -> uhist u d w' (xs ++ ys) ss n
| uh_owned w bx rest ss n i p w' v : uhist u d w bx ss n -> hands_over d w bx rest ss i ->
    uowned_new_in u i w = Ok p w' -> m_makes d i = Some v -> uhist u d w' ((false, p, v) :: rest) ss n
| uh_owned_panic w bx rest ss n i w' : uhist u d w bx ss n -> hands_over d w bx rest ss i ->
    uowned_new_in u i w = Panic w' -> uhist u d w' rest ss n
| uh_owned_drop w xs p v ys ss n w' : uhist u d w (xs ++ (false, p, v) :: ys) ss n ->
    uowned_drop u p w = Ok tt w' -> uhist u d w' (xs ++ ys) ss n
| uh_forget w xs b p v ys ss n : uhist u d w (xs ++ (b, p, v) :: ys) ss n ->
    uhist u d w (xs ++ ys) ss (if (b : bool) then S n else n)
| uh_seq w bx ss n chk : uhist u d w bx ss n -> uhist u d w bx ((chk, useq_new u, []) :: ss) n
| uh_push w bx rest xs chk s vs ys n i w' s' v : uhist u d w bx (xs ++ (chk, s, vs) :: ys) n ->
    hands_over d w bx rest (xs ++ (chk, s, vs) :: ys) i -> upushable d w s i ->
    useq_push u chk i (w, s) = Ok tt (w', s') -> m_makes d i = Some v ->
    uhist u d w' rest (xs ++ (chk, s', vs ++ [v]) :: ys) n
| uh_push_panic w bx rest xs chk s vs ys n i w' s' : uhist u d w bx (xs ++ (chk, s, vs) :: ys) n ->
    hands_over d w bx rest (xs ++ (chk, s, vs) :: ys) i -> upushable d w s i ->
    useq_push u chk i (w, s) = Panic (w', s') -> uhist u d w' rest (xs ++ (chk, s', vs) :: ys) n
| uh_drain w bx xs s vs ys n forget w' s' : uhist u d w bx (xs ++ (false, s, vs) :: ys) n ->
    udrain u false forget (w, s) = Ok tt (w', s') -> uhist u d w' bx (xs ++ (false, s', []) :: ys) n
| uh_seq_drop w bx xs chk s vs ys n w' s' : uhist u d w bx (xs ++ (chk, s, vs) :: ys) n ->
    useq_drop u chk (w, s) = Ok tt (w', s') -> uhist u d w' bx (xs ++ ys) n
| uh_seq_forget w bx xs chk s vs ys n : uhist u d w bx (xs ++ (chk, s, vs) :: ys) n ->
    uhist u d w bx (xs ++ ys) (S n).

(** ** The crate's own types *)

(** What a type of the crate means (Spec.v): an initializer is usable if what it refers to is in the
    given blocks. *)
Definition crate_meaning (t : vty) : meaning lay (init * list block) vval :=
  mkMeaning _ _ _ (fun m a v => vok t v /\ repr m t a v) (vsize t)
    (fun v l => vok t v /\ l = sp_lay t (vshape v)) (fun v => map EDrop (vdrops t v))
    (fun w i => incl (snd i) (w_blocks w) /\ usable (set_blocks w (snd i)) t (fst i))
    snd (fun i => ibases t (fst i))
    (fun i => ival t (fst i)) (fun i => fst (irun t (fst i))) (fun i => idrop t (fst i)).
