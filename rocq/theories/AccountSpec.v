(** AccountSpec.v - book-keeping for C50: the values with destructors that enter a program, those it
    holds, those that have been destroyed. Small specification, no memory. *)
From Verif Require Export ProgSpec.

Notation droppable := (list cell) (only parsing).

(** The values with a destructor that a program holds in its boxes, owned values and sequences. *)
Definition held (σ : list aval) : list droppable := concat (map owned_drops σ).

(** Values with a destructor that an initializer expression passes by value: FixedLen values, header
    fields, arrays that are moved in. Moved boxes are not counted: the program already holds their
    contents. *)
Fixpoint igiven (t : vty) (i : init) : list droppable :=
  match t, i with
  | TFixed f, IFixed v => if f_drop f then [v] else []
  | TArray f _, ISized _ (AMoveFrom vs) => if f_drop f then vs else []
  | TNew t, INew i => igiven t i
  | TRec _ _ _ fs, IRec is_ => igiven_flds fs is_
  | _, _ => []
  end
with igiven_flds (fs : flds) (is_ : list init) : list droppable :=
  match fs, is_ with
  | FNormal _ f r, IFixed v :: is' | FLength _ f r, IFixed v :: is' =>
      (if f_drop f then [v] else []) ++ igiven_flds r is'
  | FVar t r, i :: is' => igiven t i ++ igiven_flds r is'
  | FArr f _ r, IArrF (AMoveFrom vs) :: is' => (if f_drop f then vs else []) ++ igiven_flds r is'
  | FArr _ _ r, _ :: is' => igiven_flds r is'
  | _, _ => []
  end.

(** Values with a destructor that client code makes while the initializer runs: results of closures,
    of Default, of iterators, of Clone. *)
Definition somes {A} (l : list (option A)) : list A :=
  concat (map (fun o => match o with Some x => [x] | None => [] end) l).
Definition amade (f : fty) (n : N) (ai : ainit) : list droppable :=
  if f_drop f then
    match ai with
    | AFillSeq g | AFillDefault g | AIterPrefix g => somes (map g (upto n))
    | ACloneFrom vs | ACloneAt _ _ vs => somes (map (f_clone f) vs)
    | ACopyFrom _ | ACopyAt _ _ _ | AMoveFrom _ => []
    (* what is left in the slots; values overwritten by the initializer itself are its own business *)
    | AUser ws _ => somes (map (last_write (ws n)) (upto n))
    end
  else [].
Fixpoint imade (t : vty) (i : init) : list droppable :=
  match t, i with
  | TFixed f, IFixedClone v | TFixed f, IFixedCloneAt _ v => if f_drop f then somes [f_clone f v] else []
  | TArray f _, ISized n ai => amade f n ai
  | TNew t, INew i => imade t i
  | TRec _ _ _ fs, IRec is_ => imade_flds fs is_ (ictrls fs is_)
  | _, _ => []
  end
with imade_flds (fs : flds) (is_ : list init) (cs : list (list cell)) : list droppable :=
  match fs, is_ with
  | FNormal _ _ r, _ :: is' | FLength _ _ r, _ :: is' => imade_flds r is' cs
  | FVar t r, i :: is' => imade t i ++ imade_flds r is' cs
  | FArr f lf r, IArrF ai :: is' => amade f (lf cs) ai ++ imade_flds r is' cs
  | _, _ => []
  end.

(** Values with a destructor that are assigned to elements taken from a take_elems iterator (compare
    [take_eval], ProgSpec.v). *)
Fixpoint take_ins (t : vty) (cmds : list tcmd) (rest : list vval) (hd : list (option vval)) : list droppable :=
  match cmds with
  | [] => []
  | TNext :: r =>
      match rest with
      | [] => take_ins t r [] hd
      | v :: rest' => take_ins t r rest' (hd ++ [Some v])
      end
  | TAssign j q new :: r =>
      match nth_error hd j, mut_leaf t q with
      | Some (Some v), Some f =>
          match leaf v q with
          | Some _ => (if f_drop f then [new] else []) ++ take_ins t r rest (replace_nth hd j (Some (put v q new)))
          | None => []
          end
      | _, _ => []
      end
  | TDrop j :: r | TForget j :: r => take_ins t r rest (replace_nth hd j None)
  | TLen :: r | TRead _ :: r => take_ins t r rest hd
  end.
Definition forgets (c : tcmd) : bool := match c with TForget _ => true | _ => false end.

(** [brings σ o r ins calm]: operation [o], done in state [σ] with outcome [r], takes over the values
    [ins] from the client; [calm] is false if client code called by an initializer panicked, or
    something was passed to mem::forget. *)
Definition init_ins (t : vty) (i : init) (r : outcome) : list droppable :=
  igiven t i ++ match r with Done _ => imade t i | Panicked => [] end.
Definition init_calm (t : vty) (i : init) (r : outcome) : bool :=
  match r with Done _ => true | Panicked => match ival t i with Some _ => true | None => false end end.
Inductive brings (σ : list aval) : op -> outcome -> list droppable -> bool -> Prop :=
| G_box : forall t p i r, den σ t p i -> brings σ (ONewBox t p) r (init_ins t i r) (init_calm t i r)
| G_owned : forall t p i r, den σ t p i -> brings σ (ONewOwned t p) r (init_ins t i r) (init_calm t i r)
| G_push : forall h p t chk vs old i r, nth_error σ h = Some (ASeq t chk vs old) -> den σ t p i ->
    brings σ (OPush h p) r (init_ins t i r) (init_calm t i r)
| G_assign : forall pl q new t v f r, at_place σ pl = Some (t, v) -> mut_leaf t q = Some f ->
    brings σ (OAssign pl q new) r
      (match r with Done _ => if f_drop f then [new] else [] | Panicked => [] end) true
| G_controllers : forall pl news hs ha fs vs r, at_place σ pl = Some (TRec KStruct hs ha fs, VRec vs) ->
    brings σ (OControllers pl news) r
      (concat (map (fun fc => if f_drop (fst fc) then [snd fc] else []) (combine (ctrl_types fs) news))) true
| G_forget : forall h r, brings σ (OForget h) r [] false
| G_take : forall h cmds keep t chk vs old r, nth_error σ h = Some (ASeq t chk vs old) ->
    brings σ (OTake h cmds keep) r (take_ins t cmds vs []) (negb (keep || existsb forgets cmds))
| G_other : forall o r,
    match o with
    | ONewSeq _ _ | ODrop _ | ODrain _ | ORead _ | OReadSeq _ | OLookup _ _ | OLen _ | OOffset _
    | OOffsetOf _ _ | OOffsetValid _ _ | OCapacity _ | OReadFirst _ _ | OSwap _ _ _ | OSwap2 _ _ _ _ | OSwapObj _ _ => True
    | _ => False
    end -> brings σ o r [] true.

(** [account w sl σ ins calm]: like [reach] (ProgSpec.v), started with an empty log; [ins] are all the
    values that entered so far, [calm] says that no client code called by an initializer panicked and
    that nothing was passed to mem::forget. *)
Inductive account : world -> list slot -> list aval -> list droppable -> bool -> Prop :=
| K_start : forall w, w_blocks w = [] -> w_log w = [] -> account w [] [] [] true
| K_done : forall w sl σ ins calm o r w' sl' σ' evs ins' calm', account w sl σ ins calm -> allowed σ o ->
    exec o (w, sl) = Ok r (w', sl') -> w_log w' = w_log w ++ evs -> astep σ o (Done r) σ' (drops_of evs) ->
    brings σ o (Done r) ins' calm' -> account w' sl' σ' (ins ++ ins') (calm && calm')
| K_panicked : forall w sl σ ins calm o w' sl' σ' evs ins' calm', account w sl σ ins calm -> allowed σ o ->
    exec o (w, sl) = Panic (w', sl') -> w_log w' = w_log w ++ evs -> astep σ o Panicked σ' (drops_of evs) ->
    brings σ o Panicked ins' calm' -> account w' sl' σ' (ins ++ ins') (calm && calm').
