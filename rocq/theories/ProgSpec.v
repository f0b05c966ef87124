(** ProgSpec.v - what a whole program means: a purely functional account in terms of values only (no
    memory, no addresses). Used to state C45. *)
From Verif Require Export Program Spec.

(** ** States *)

(** The values a program holds: boxes and owned values with their contents, sequences with their
    elements. [old] collects offsets that were in use before some take_elems (see C19). *)
Inductive aval :=
| ABox (t : vty) (v : vval)
| AOwn (t : vty) (v : vval)
| ASeq (t : vty) (chk : bool) (vs : list vval) (old : list N)
| ADead.

(** Variable-length parts of a value: the j-th field of a record if it is a #[varlen] field (or a
    component of a tuple), the inside of a newtype, nested to any depth. *)
Fixpoint varlen_field (fs : flds) (j : nat) : option vty :=
  match fs, j with
  | FVar t _, O => Some t
  | FNormal _ _ r, S j | FLength _ _ r, S j | FVar _ r, S j | FArr _ _ r, S j => varlen_field r j
  | _, _ => None
  end.
Fixpoint subval (t : vty) (v : vval) (p : path) {struct p} : option (vty * vval) :=
  match p with
  | PHere => Some (t, v)
  | PIdx _ => None
  | PInner p => match t, v with TNew t, VNew v => subval t v p | _, _ => None end
  | PFld j p =>
      match t, v with
      | TRec _ _ _ fs, VRec vs =>
          match varlen_field fs j, nth_error vs j with
          | Some t', Some v' => subval t' v' p
          | _, _ => None
          end
      | _, _ => None
      end
  end.
(** The value with such a part replaced. *)
Fixpoint putsub (v : vval) (p : path) (new : vval) {struct p} : vval :=
  match p with
  | PHere => new
  | PIdx _ => v
  | PInner p => match v with VNew v => VNew (putsub v p new) | _ => v end
  | PFld j p =>
      match v with
      | VRec vs =>
          match nth_error vs j with
          | Some u => VRec (replace_nth vs j (putsub u p new))
          | None => v
          end
      | _ => v
      end
  end.
(** The position of an offset in a list of offsets. *)
Fixpoint index_of (o : N) (l : list N) : option nat :=
  match l with
  | [] => None
  | x :: r => if o =? x then Some O else option_map S (index_of o r)
  end.
(** The object at a place, and the state with that object replaced. A lookup by offset means the
    element that starts at that offset; it is a place only if there is one. *)
Definition at_place (σ : list aval) (pl : place) : option (vty * vval) :=
  match pl with
  | PlObj h p =>
      match nth_error σ h with
      | Some (ABox t v) | Some (AOwn t v) => subval t v p
      | _ => None
      end
  | PlElem h k p =>
      match nth_error σ h with
      | Some (ASeq t _ vs _) => match nth_error vs k with Some v => subval t v p | None => None end
      | _ => None
      end
  | PlOff h u o p =>
      match nth_error σ h with
      | Some (ASeq t chk vs _) =>
          if u || chk then
            match index_of o (starts t vs 0) with
            | Some k => match nth_error vs k with Some v => subval t v p | None => None end
            | None => None
            end
          else None
      | _ => None
      end
  end.
Definition put_place (σ : list aval) (pl : place) (new : vval) : list aval :=
  match pl with
  | PlObj h p =>
      match nth_error σ h with
      | Some (ABox t v) => replace_nth σ h (ABox t (putsub v p new))
      | Some (AOwn t v) => replace_nth σ h (AOwn t (putsub v p new))
      | _ => σ
      end
  | PlElem h k p =>
      match nth_error σ h with
      | Some (ASeq t chk vs old) =>
          match nth_error vs k with
          | Some v => replace_nth σ h (ASeq t chk (replace_nth vs k (putsub v p new)) old)
          | None => σ
          end
      | _ => σ
      end
  | PlOff h _ o p =>
      match nth_error σ h with
      | Some (ASeq t chk vs old) =>
          match index_of o (starts t vs 0) with
          | Some k =>
              match nth_error vs k with
              | Some v => replace_nth σ h (ASeq t chk (replace_nth vs k (putsub v p new)) old)
              | None => σ
              end
          | None => σ
          end
      | _ => σ
      end
  end.
(** Two nested parts of an object that are in different fields somewhere on the way. *)
Inductive diverge : path -> path -> Prop :=
| V_fields : forall i j p q, i <> j -> diverge (PFld i p) (PFld j q)
| V_field : forall j p q, diverge p q -> diverge (PFld j p) (PFld j q)
| V_inner : forall p q, diverge p q -> diverge (PInner p) (PInner q).
(** Where a place is: the number of the owner, the number of the element if it is a sequence, the path. *)
Definition whereabouts (σ : list aval) (pl : place) : option (nat * option nat * path) :=
  match pl with
  | PlObj h p => Some (h, None, p)
  | PlElem h k p => Some (h, Some k, p)
  | PlOff h _ o p =>
      match nth_error σ h with
      | Some (ASeq t _ vs _) => option_map (fun k => (h, Some k, p)) (index_of o (starts t vs 0))
      | _ => None
      end
  end.
(** Two objects none of which is part of the other: different owners, different elements of a sequence,
    or different fields. *)
Definition away (σ : list aval) (pl pl' : place) : Prop :=
  match whereabouts σ pl, whereabouts σ pl' with
  | Some (h, k, p), Some (h', k', p') => h <> h' \/ k <> k' \/ diverge p p'
  | _, _ => False
  end.
Definition kill_vals (σ : list aval) (hs : list nat) : list aval :=
  fold_left (fun σ h => replace_nth σ h ADead) hs σ.

(** ** Well-typed initializer expressions *)

(** The elements of the Array at a place, or of its #[varlen_array] field number [j]. *)
Fixpoint array_field (fs : flds) (j : nat) : option fty :=
  match fs, j with
  | FArr f _ _, O => Some f
  | FNormal _ _ r, S j | FLength _ _ r, S j | FVar _ r, S j | FArr _ _ r, S j => array_field r j
  | _, _ => None
  end.
Definition elements (t : vty) (v : vval) (j : option nat) : option (fty * list (list cell)) :=
  match t, v, j with
  | TArray f _, VArr xs, None => Some (f, xs)
  | TRec _ _ _ fs, VRec vs, Some j =>
      match array_field fs j, nth_error vs j with Some f, Some (VArr xs) => Some (f, xs) | _, _ => None end
  | _, _, _ => None
  end.
Definition elements_at (σ : list aval) (pl : place) (j : option nat) : option (fty * list (list cell)) :=
  match at_place σ pl with Some (t, v) => elements t v j | None => None end.
(** [slice_den σ f cl pl j lo k ai]: in [σ], CopyFrom (CloneFrom if [cl]) of elements lo..lo+k of that
    array; they exist, and CopyFrom needs a Copy type. *)
Inductive slice_den (σ : list aval) (f : fty) (pl : place) (j : option nat) (lo k : N) : bool -> ainit -> Prop :=
| SD_copy : forall xs, elements_at σ pl j = Some (f, xs) -> lo + k <= len xs -> f_drop f = false ->
    slice_den σ f pl j lo k false (ACopyFrom (firstn (N.to_nat k) (skipn (N.to_nat lo) xs)))
| SD_clone : forall xs, elements_at σ pl j = Some (f, xs) -> lo + k <= len xs ->
    slice_den σ f pl j lo k true (ACloneFrom (firstn (N.to_nat k) (skipn (N.to_nat lo) xs))).
(** An array initializer whose elements are given by the program itself, not by a reference into the
    memory of an object (for those see [D_sized_at], [Ds_arr_at]). *)
Definition supplied (ai : ainit) : Prop :=
  match ai with ACopyAt _ _ _ | ACloneAt _ _ _ => False | _ => True end.
(** [den σ t p i]: in state [σ] the expression [p] is an initializer for type [t], namely [i]. The
    addresses in [i] are irrelevant here and set to 0; the values of moved and copied objects are
    those of [σ]. *)
Inductive den (σ : list aval) : vty -> pinit -> init -> Prop :=
| D_fixed : forall f v, len v = f_size f -> den σ (TFixed f) (PFixed v) (IFixed v)
| D_fixed_clone : forall f v, len v = f_size f -> den σ (TFixed f) (PFixedClone v) (IFixedClone v)
| D_sized : forall f k n ai, aok f ai -> supplied ai -> n < len_lim k -> den σ (TArray f k) (PSized n ai) (ISized n ai)
| D_sized_at : forall f k n cl pl j lo m ai, slice_den σ f pl j lo m cl ai -> n < len_lim k ->
    den σ (TArray f k) (PSizedAt n cl pl j lo m) (ISized n ai)
| D_wrap : forall t p i, den σ t p i -> den σ (TNew t) (PWrap p) (INew i)
| D_fields : forall kd hs ha fs ps is_, dens σ fs ps is_ -> den σ (TRec kd hs ha fs) (PFields ps) (IRec is_)
| D_box : forall t h v, nth_error σ h = Some (ABox t v) -> den σ t (PBox h) (IBox 0 v)
| D_copy : forall t pl v, at_place σ pl = Some (t, v) -> plain t -> den σ t (PCopy pl) (ICopy 0 v)
| D_clone : forall t pl v, at_place σ pl = Some (t, v) -> clonable t -> den σ t (PClone pl) (clone_init t v)
with dens (σ : list aval) : flds -> list pinit -> list init -> Prop :=
| Ds_nil : dens σ FNil [] []
| Ds_normal : forall off f r v ps is_, len v = f_size f -> dens σ r ps is_ ->
    dens σ (FNormal off f r) (PFixed v :: ps) (IFixed v :: is_)
| Ds_length : forall off f r v ps is_, len v = f_size f -> dens σ r ps is_ ->
    dens σ (FLength off f r) (PFixed v :: ps) (IFixed v :: is_)
| Ds_var : forall t r p i ps is_, den σ t p i -> dens σ r ps is_ -> dens σ (FVar t r) (p :: ps) (i :: is_)
| Ds_arr : forall f lf r ai ps is_, aok f ai -> supplied ai -> dens σ r ps is_ ->
    dens σ (FArr f lf r) (PArrF ai :: ps) (IArrF ai :: is_)
| Ds_arr_at : forall f lf r cl pl j lo m ai ps is_, slice_den σ f pl j lo m cl ai -> dens σ r ps is_ ->
    dens σ (FArr f lf r) (PArrAt cl pl j lo m :: ps) (IArrF ai :: is_).

(** ** The iterator of take_elems *)

(** What a client's commands do with the elements [rest] still in the iterator and those taken from
    it ([hd], None: dropped or forgotten): results, what is left, values destroyed. [TBad]: not a
    legal program (an element used after it was dropped). *)
Inductive tres :=
| TDone (outs : list out) (rest : list vval) (hd : list (option vval)) (d : list (list cell))
| TPanic (rest : list vval) (hd : list (option vval)) (d : list (list cell))
| TBad.
Definition then_t (o : out) (d : list (list cell)) (r : tres) : tres :=
  match r with
  | TDone outs rest hd d' => TDone (o :: outs) rest hd (d ++ d')
  | TPanic rest hd d' => TPanic rest hd (d ++ d')
  | TBad => TBad
  end.
Fixpoint take_eval (t : vty) (cmds : list tcmd) (rest : list vval) (hd : list (option vval)) : tres :=
  match cmds with
  | [] => TDone [] rest hd []
  | TNext :: r =>
      match rest with
      | [] => then_t (OutBool false) [] (take_eval t r [] hd)
      | v :: rest' => then_t (OutBool true) [] (take_eval t r rest' (hd ++ [Some v]))
      end
  | TLen :: r => then_t (OutNum (len rest)) [] (take_eval t r rest hd)
  | TRead j :: r =>
      match nth_error hd j with
      | Some (Some v) => then_t (OutVal v) [] (take_eval t r rest hd)
      | _ => TBad
      end
  | TAssign j q new :: r =>
      match nth_error hd j, mut_leaf t q with
      | Some (Some v), Some f =>
          if len new =? f_size f then
            match leaf v q with
            | Some b =>
                then_t OutUnit (if f_drop f then [b] else [])
                  (take_eval t r rest (replace_nth hd j (Some (put v q new))))
            | None => TPanic rest hd []        (* an array index is out of range *)
            end
          else TBad
      | _, _ => TBad
      end
  | TDrop j :: r =>
      match nth_error hd j with
      | Some (Some v) => then_t OutUnit (vdrops t v) (take_eval t r rest (replace_nth hd j None))
      | _ => TBad
      end
  | TForget j :: r =>
      match nth_error hd j with
      | Some (Some _) => then_t OutUnit [] (take_eval t r rest (replace_nth hd j None))
      | _ => TBad
      end
  end.
(** The values destroyed when the elements held go out of scope. *)
Definition hd_drops (t : vty) (hd : list (option vval)) : list (list cell) :=
  concat (map (fun o => match o with Some v => vdrops t v | None => [] end) hd).

(** ** Which operations safe Rust allows in a state *)

(** No box is moved twice, nothing borrowed is moved, and the sequence that is pushed to ([tgt]) is
    neither borrowed nor moved. *)
Definition borrow_ok (p : pinit) (tgt : list nat) : Prop :=
  NoDup (moves p) /\
  (forall h, In h (moves p) -> ~ In h (borrows p) /\ ~ In h tgt) /\
  (forall h, In h (borrows p) -> ~ In h tgt).
(** The operations that are excluded although Rust allows them are those with known defects: boxes
    and sequences of zero-sized objects (C24, C25, C28), checked lookups at offsets that were in use
    before a take_elems (C19); Owned as an initializer (C12) has no operation. *)
Inductive allowed (σ : list aval) : op -> Prop :=
| L_new_box : forall t p i, wf_ty t -> den σ t p i -> borrow_ok p [] -> 0 < isize t i -> allowed σ (ONewBox t p)
| L_new_owned : forall t p i, wf_ty t -> den σ t p i -> borrow_ok p [] -> allowed σ (ONewOwned t p)
| L_new_seq : forall t chk, wf_ty t -> nonzst t -> allowed σ (ONewSeq t chk)
| L_push : forall h p t chk vs old i, nth_error σ h = Some (ASeq t chk vs old) -> den σ t p i ->
    borrow_ok p [h] -> allowed σ (OPush h p)
| L_drop : forall h v, nth_error σ h = Some v -> v <> ADead -> allowed σ (ODrop h)
| L_assign : forall pl q new t v f, at_place σ pl = Some (t, v) -> mut_leaf t q = Some f ->
    len new = f_size f -> allowed σ (OAssign pl q new)
| L_controllers : forall pl news hs ha fs vs, at_place σ pl = Some (TRec KStruct hs ha fs, VRec vs) ->
    ctrls_ok fs news -> allowed σ (OControllers pl news)
| L_drain : forall h t chk vs old, nth_error σ h = Some (ASeq t chk vs old) -> allowed σ (ODrain h)
| L_read : forall pl t v, at_place σ pl = Some (t, v) -> allowed σ (ORead pl)
| L_read_seq : forall h t chk vs old, nth_error σ h = Some (ASeq t chk vs old) -> allowed σ (OReadSeq h)
| L_lookup : forall h o t vs old, nth_error σ h = Some (ASeq t true vs old) ->
    (In o old -> In o (starts t vs 0)) -> allowed σ (OLookup h o)
| L_len : forall h t chk vs old, nth_error σ h = Some (ASeq t chk vs old) -> allowed σ (OLen h)
| L_offset : forall h t chk vs old, nth_error σ h = Some (ASeq t chk vs old) -> allowed σ (OOffset h)
| L_offset_of : forall h pl t chk vs old v, nth_error σ h = Some (ASeq t chk vs old) ->
    at_place σ pl = Some (t, v) -> allowed σ (OOffsetOf h pl)
| L_offset_valid : forall h o t vs old, nth_error σ h = Some (ASeq t true vs old) ->
    (In o old -> In o (starts t vs 0)) -> allowed σ (OOffsetValid h o)
| L_capacity : forall h t chk vs old, nth_error σ h = Some (ASeq t chk vs old) -> allowed σ (OCapacity h)
| L_read_first : forall h m t chk vs old, nth_error σ h = Some (ASeq t chk vs old) -> allowed σ (OReadFirst h m)
| L_forget : forall h v, nth_error σ h = Some v -> v <> ADead -> allowed σ (OForget h)
| L_take : forall h cmds keep t chk vs old, nth_error σ h = Some (ASeq t chk vs old) ->
    take_eval t cmds vs [] <> TBad -> allowed σ (OTake h cmds keep)
| L_swap : forall pl q q' t v f, at_place σ pl = Some (t, v) -> mut_leaf t q = Some f -> mut_leaf t q' = Some f ->
    allowed σ (OSwap pl q q')
| L_swap2 : forall pl q pl' q' t v t' v' f, at_place σ pl = Some (t, v) -> at_place σ pl' = Some (t', v') ->
    away σ pl pl' -> mut_leaf t q = Some f -> mut_leaf t' q' = Some f -> allowed σ (OSwap2 pl q pl' q')
(* whole objects may be swapped if their type is Unpin *)
| L_swap_obj : forall U pl pl' t v v', at_place σ pl = Some (t, v) -> at_place σ pl' = Some (t, v') ->
    away σ pl pl' -> unpin U t = true -> allowed σ (OSwapObj pl pl').

(** ** What an operation does *)

Inductive outcome := Done (o : out) | Panicked.
Definition owned_drops (v : aval) : list (list cell) :=
  match v with
  | ABox t v | AOwn t v => vdrops t v
  | ASeq t _ vs _ => concat (map (vdrops t) vs)
  | ADead => []
  end.
(** [astep σ o r σ' d]: operation [o] in state [σ] can end with outcome [r] and state [σ'], running
    destructors on the values [d], in this order. *)
Inductive astep (σ : list aval) : op -> outcome -> list aval -> list (list cell) -> Prop :=
| A_new_box : forall t p i v, den σ t p i -> fits t i = true -> ival t i = Some v ->
    astep σ (ONewBox t p) (Done OutUnit) (kill_vals σ (moves p) ++ [ABox t v]) []
(* a length expression panics, or the object is too large for the allocator interface: the
   initializer is dropped *)
| A_new_box_large : forall t p i, den σ t p i -> fits t i = false ->
    astep σ (ONewBox t p) Panicked (kill_vals σ (moves p)) (drops_of (idrop t i))
(* the initializer itself panics *)
| A_new_box_panic : forall t p i, den σ t p i -> fits t i = true -> ival t i = None ->
    astep σ (ONewBox t p) Panicked (kill_vals σ (moves p)) (drops_of (fst (irun t i)))
| A_new_owned : forall t p i v, den σ t p i -> fits t i = true -> ival t i = Some v ->
    astep σ (ONewOwned t p) (Done OutUnit) (kill_vals σ (moves p) ++ [AOwn t v]) []
(* no room in the arena, too large, or a length expression panics *)
| A_new_owned_fail : forall t p i, den σ t p i ->
    astep σ (ONewOwned t p) Panicked (kill_vals σ (moves p)) (drops_of (idrop t i))
| A_new_owned_panic : forall t p i, den σ t p i -> fits t i = true -> ival t i = None ->
    astep σ (ONewOwned t p) Panicked (kill_vals σ (moves p)) (drops_of (fst (irun t i)))
| A_new_seq : forall t chk, astep σ (ONewSeq t chk) (Done OutUnit) (σ ++ [ASeq t chk [] []]) []
| A_push : forall h p t chk vs old i v, nth_error σ h = Some (ASeq t chk vs old) -> den σ t p i ->
    ilens t i = true -> ival t i = Some v ->
    astep σ (OPush h p) (Done OutUnit) (replace_nth (kill_vals σ (moves p)) h (ASeq t chk (vs ++ [v]) old)) []
(* a length expression panics, or the storage cannot grow: the initializer is dropped, the sequence stays as it is *)
| A_push_fail : forall h p t chk vs old i, nth_error σ h = Some (ASeq t chk vs old) -> den σ t p i ->
    astep σ (OPush h p) Panicked (kill_vals σ (moves p)) (drops_of (idrop t i))
| A_push_panic : forall h p t chk vs old i, nth_error σ h = Some (ASeq t chk vs old) -> den σ t p i ->
    ilens t i = true -> ival t i = None ->
    astep σ (OPush h p) Panicked (kill_vals σ (moves p)) (drops_of (fst (irun t i)))
| A_drop : forall h v, nth_error σ h = Some v -> v <> ADead ->
    astep σ (ODrop h) (Done OutUnit) (kill_vals σ [h]) (owned_drops v)
| A_assign : forall pl q new t v f b, at_place σ pl = Some (t, v) -> mut_leaf t q = Some f -> leaf v q = Some b ->
    astep σ (OAssign pl q new) (Done OutUnit) (put_place σ pl (put v q new)) (if f_drop f then [b] else [])
(* an array index is out of range *)
| A_assign_range : forall pl q new t v, at_place σ pl = Some (t, v) -> leaf v q = None ->
    astep σ (OAssign pl q new) Panicked σ []
| A_controllers : forall pl news hs ha fs vs, at_place σ pl = Some (TRec KStruct hs ha fs, VRec vs) ->
    lengths_eval fs news -> same_lengths fs (vctrls fs vs) news ->
    astep σ (OControllers pl news) (Done (OutBool true)) (put_place σ pl (VRec (with_ctrls fs vs news)))
      (drops_of (ctrl_drops (ctrl_types fs) (vctrls fs vs)))
| A_controllers_mismatch : forall pl news hs ha fs vs, at_place σ pl = Some (TRec KStruct hs ha fs, VRec vs) ->
    lengths_eval fs news -> ~ same_lengths fs (vctrls fs vs) news ->
    astep σ (OControllers pl news) (Done (OutBool false)) σ (drops_of (ctrl_drops (ctrl_types fs) news))
(* a length expression panics on the new controllers: they are dropped, the object stays as it is *)
| A_controllers_panic : forall pl news hs ha fs vs, at_place σ pl = Some (TRec KStruct hs ha fs, VRec vs) ->
    ~ lengths_eval fs news ->
    astep σ (OControllers pl news) Panicked σ (drops_of (ctrl_drops (ctrl_types fs) news))
| A_drain : forall h t chk vs old, nth_error σ h = Some (ASeq t chk vs old) ->
    astep σ (ODrain h) (Done OutUnit)
      (replace_nth σ h (ASeq t chk [] (old ++ starts t vs 0 ++ [total t vs]))) (concat (map (vdrops t) vs))
| A_read : forall pl t v, at_place σ pl = Some (t, v) -> astep σ (ORead pl) (Done (OutVal v)) σ []
| A_read_seq : forall h t chk vs old, nth_error σ h = Some (ASeq t chk vs old) ->
    astep σ (OReadSeq h) (Done (OutVals vs)) σ []
(* from_offset accepts exactly the offsets at which an element starts *)
| A_lookup : forall h o t vs old k v, nth_error σ h = Some (ASeq t true vs old) ->
    nth_error (starts t vs 0) k = Some o -> nth_error vs k = Some v ->
    astep σ (OLookup h o) (Done (OutVal v)) σ []
| A_lookup_miss : forall h o t vs old, nth_error σ h = Some (ASeq t true vs old) ->
    ~ In o (starts t vs 0) -> astep σ (OLookup h o) Panicked σ []
| A_len : forall h t chk vs old, nth_error σ h = Some (ASeq t chk vs old) ->
    astep σ (OLen h) (Done (OutNum (len vs))) σ []
| A_offset : forall h t chk vs old, nth_error σ h = Some (ASeq t chk vs old) ->
    astep σ (OOffset h) (Done (OutNum (total t vs))) σ []
(* offset_of an element is the offset at which it starts *)
| A_offset_of : forall h pl t chk vs old k o, nth_error σ h = Some (ASeq t chk vs old) ->
    (pl = PlElem h k PHere \/ exists u, pl = PlOff h u o PHere) ->
    nth_error (starts t vs 0) k = Some o ->
    astep σ (OOffsetOf h pl) (Done (OutNum o)) σ []
(* offset_of an object of another owner panics *)
| A_offset_of_foreign : forall h pl, place_handle pl <> h -> astep σ (OOffsetOf h pl) Panicked σ []
| A_offset_valid : forall h o t vs old b, nth_error σ h = Some (ASeq t true vs old) ->
    (b = true <-> In o (starts t vs 0)) -> astep σ (OOffsetValid h o) (Done (OutBool b)) σ []
| A_capacity : forall h t chk vs old c, nth_error σ h = Some (ASeq t chk vs old) -> total t vs <= c ->
    astep σ (OCapacity h) (Done (OutNum c)) σ []
| A_read_first : forall h m t chk vs old, nth_error σ h = Some (ASeq t chk vs old) ->
    astep σ (OReadFirst h m) (Done (OutVals (firstn (N.to_nat m) vs))) σ []
| A_forget : forall h, astep σ (OForget h) (Done OutUnit) (kill_vals σ [h]) []
| A_take : forall h cmds keep t chk vs old outs rest hd d, nth_error σ h = Some (ASeq t chk vs old) ->
    take_eval t cmds vs [] = TDone outs rest hd d ->
    astep σ (OTake h cmds keep) (Done (OutList outs))
      (replace_nth σ h (ASeq t chk [] (old ++ starts t vs 0 ++ [total t vs])))
      (d ++ hd_drops t hd ++ if keep then [] else concat (map (vdrops t) rest))
| A_take_panic : forall h cmds keep t chk vs old rest hd d, nth_error σ h = Some (ASeq t chk vs old) ->
    take_eval t cmds vs [] = TPanic rest hd d ->
    astep σ (OTake h cmds keep) Panicked
      (replace_nth σ h (ASeq t chk [] (old ++ starts t vs 0 ++ [total t vs])))
      (d ++ hd_drops t hd ++ concat (map (vdrops t) rest))
| A_swap : forall pl q q' t v x y, at_place σ pl = Some (t, v) -> leaf v q = Some x -> leaf v q' = Some y ->
    astep σ (OSwap pl q q') (Done OutUnit) (put_place σ pl (put (put v q y) q' x)) []
(* an array index is out of range *)
| A_swap_range : forall pl q q' t v, at_place σ pl = Some (t, v) -> leaf v q = None \/ leaf v q' = None ->
    astep σ (OSwap pl q q') Panicked σ []
| A_swap2 : forall pl q pl' q' t v t' v' x y, at_place σ pl = Some (t, v) -> at_place σ pl' = Some (t', v') ->
    leaf v q = Some x -> leaf v' q' = Some y ->
    astep σ (OSwap2 pl q pl' q') (Done OutUnit) (put_place (put_place σ pl (put v q y)) pl' (put v' q' x)) []
| A_swap2_range : forall pl q pl' q' t v t' v', at_place σ pl = Some (t, v) -> at_place σ pl' = Some (t', v') ->
    leaf v q = None \/ leaf v' q' = None -> astep σ (OSwap2 pl q pl' q') Panicked σ []
| A_swap_obj : forall pl pl' t v v', at_place σ pl = Some (t, v) -> at_place σ pl' = Some (t, v') ->
    astep σ (OSwapObj pl pl') (Done OutUnit) (put_place (put_place σ pl v') pl' v) [].

(** ** Reachable states of programs *)

(** [reach w sl σ n]: some program, started with no values and an empty heap, has executed any
    sequence of allowed operations, each of which returned or panicked (and was caught), and now
    holds the values [sl] in world [w]; according to the functional account these are [σ]. [n] counts
    the calls of VBox::new whose initializer panicked and the calls of mem::forget. *)
Inductive reach : world -> list slot -> list aval -> nat -> Prop :=
| R_start : forall w, w_blocks w = [] -> reach w [] [] 0
| R_done : forall w sl σ n o r w' sl' σ' d, reach w sl σ n -> allowed σ o ->
    exec o (w, sl) = Ok r (w', sl') -> astep σ o (Done r) σ' d ->
    reach w' sl' σ' (match o with OForget _ => S n | _ => n end)
| R_panicked : forall w sl σ n o w' sl' σ' d, reach w sl σ n -> allowed σ o ->
    exec o (w, sl) = Panic (w', sl') -> astep σ o Panicked σ' d ->
    reach w' sl' σ' (match o with ONewBox _ _ => S n | _ => n end).
(** The base addresses of the heap blocks that the values a program holds own. *)
Definition slot_bases (s : slot) : list N :=
  match s with
  | SBox _ a => [a]
  | SSeq _ _ s => seq_base s
  | SOwn _ _ | SDead => []
  end.
