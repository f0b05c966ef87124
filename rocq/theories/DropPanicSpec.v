(** DropPanicSpec.v - what happens to the values of an object when destructors may panic. No memory. *)
From Verif Require Export DropPanic AccountSpec.

(** The values with destructors of an object, in groups: the elements of one array form a group, every
    other value is a group of its own. *)
Fixpoint vgroups (t : vty) (v : vval) : list (list droppable) :=
  match t, v with
  | TFixed f, VFix bs => if f_drop f then [[bs]] else []
  | TArray f _, VArr xs => if f_drop f then [xs] else []
  | TNew t, VNew v => vgroups t v
  | TRec _ _ _ fs, VRec vs => vgroups_flds fs vs
  | _, _ => []
  end
with vgroups_flds (fs : flds) (vs : list vval) : list (list droppable) :=
  match fs, vs with
  | FNormal _ f r, VFix bs :: vs' | FLength _ f r, VFix bs :: vs' =>
      (if f_drop f then [[bs]] else []) ++ vgroups_flds r vs'
  | FVar t r, v :: vs' => vgroups t v ++ vgroups_flds r vs'
  | FArr f _ r, VArr xs :: vs' => (if f_drop f then [xs] else []) ++ vgroups_flds r vs'
  | _, _ => []
  end.
(** The groups of the values that a box, an owned value or a sequence holds. *)
Definition groups_of (v : aval) : list (list droppable) :=
  match v with
  | ABox t v | AOwn t v => vgroups t v
  | ASeq t _ vs _ => concat (map (vgroups t) vs)
  | ADead => []
  end.

(** Dropping groups of values one after the other. A group in which one destructor panics is still
    dropped completely, but then nothing more is dropped; two panics in one group abort. *)
Inductive fate := Survives | Unwinds | Aborts.
Definition panics (dp : droppable -> bool) (g : list droppable) : nat := length (filter dp g).
Fixpoint drop_groups (dp : droppable -> bool) (gs : list (list droppable)) : fate * list droppable :=
  match gs with
  | [] => (Survives, [])
  | g :: r =>
      match panics dp g with
      | O => let '(f, d) := drop_groups dp r in (f, g ++ d)
      | S O => (Unwinds, g)
      | _ => (Aborts, [])
      end
  end.

(** ** try_set_layout_controllers *)

(** Number [k] is the first of the controllers [cs] whose destructor panics. *)
Definition first_bad (dp : droppable -> bool) (fs : flds) (cs : list droppable) (k : nat) : Prop :=
  ctrl_panics dp (ctrl_types fs) cs k = true /\
  forall j, (j < k)%nat -> ctrl_panics dp (ctrl_types fs) cs j = false.

(** ** The iterator of take_elems (compare [take_eval], ProgSpec.v) *)

(** Dropping objects, given by their groups, in one Vec: when one panics, the others are still
    dropped, and a second panic aborts. *)
Fixpoint drop_all (dp : droppable -> bool) (l : list (list (list droppable))) : fate * list droppable :=
  match l with
  | [] => (Survives, [])
  | gs :: r =>
      match drop_groups dp gs, drop_all dp r with
      | (Survives, d), (f, d') => (f, d ++ d')
      | (Unwinds, d), (Survives, d') => (Unwinds, d ++ d')
      | _, _ => (Aborts, [])
      end
  end.
(** The commands; None: the process is aborted. *)
Fixpoint take_eval_p (dp : droppable -> bool) (t : vty) (cmds : list tcmd) (rest : list vval) (hd : list (option vval))
    : option tres :=
  match cmds with
  | [] => Some (TDone [] rest hd [])
  | TNext :: r =>
      match rest with
      | [] => option_map (then_t (OutBool false) []) (take_eval_p dp t r [] hd)
      | v :: rest' => option_map (then_t (OutBool true) []) (take_eval_p dp t r rest' (hd ++ [Some v]))
      end
  | TLen :: r => option_map (then_t (OutNum (len rest)) []) (take_eval_p dp t r rest hd)
  | TRead j :: r =>
      match nth_error hd j with
      | Some (Some v) => option_map (then_t (OutVal v) []) (take_eval_p dp t r rest hd)
      | _ => Some TBad
      end
  | TAssign j q new :: r =>
      match nth_error hd j, mut_leaf t q with
      | Some (Some v), Some f =>
          if len new =? f_size f then
            match leaf v q with
            | Some b =>
                let hd' := replace_nth hd j (Some (put v q new)) in
                if f_drop f && dp b then Some (TPanic rest hd' [b])
                else option_map (then_t OutUnit (if f_drop f then [b] else [])) (take_eval_p dp t r rest hd')
            | None => Some (TPanic rest hd [])
            end
          else Some TBad
      | _, _ => Some TBad
      end
  | TDrop j :: r =>
      match nth_error hd j with
      | Some (Some v) =>
          match drop_groups dp (vgroups t v) with
          | (Survives, d) => option_map (then_t OutUnit d) (take_eval_p dp t r rest (replace_nth hd j None))
          | (Unwinds, d) => Some (TPanic rest (replace_nth hd j None) d)
          | (Aborts, _) => None
          end
      | _ => Some TBad
      end
  | TForget j :: r =>
      match nth_error hd j with
      | Some (Some _) => option_map (then_t OutUnit []) (take_eval_p dp t r rest (replace_nth hd j None))
      | _ => Some TBad
      end
  end.
(** Then the elements held and, unless it is forgotten, the iterator are dropped. *)
Definition hd_groups (t : vty) (hd : list (option vval)) : list (list (list droppable)) :=
  map (fun o => match o with Some v => vgroups t v | None => [] end) hd.
Definition drop_end (dp : droppable -> bool) (t : vty) (keep : bool) (hd : list (option vval)) (rest : list vval)
    : fate * list droppable :=
  let left := drop_groups dp (concat (map (vgroups t) rest)) in
  match drop_all dp (hd_groups t hd) with
  | (Survives, d) => if keep then (Survives, d) else (fst left, d ++ snd left)
  | (Unwinds, d) => match left with (Survives, d') => (Unwinds, d ++ d') | _ => (Aborts, []) end
  | (Aborts, _) => (Aborts, [])
  end.
(** Everything: Some (Some results) or, after a panic, Some None; and the values destroyed. *)
Definition take_all (dp : droppable -> bool) (t : vty) (cmds : list tcmd) (keep : bool) (vs : list vval)
    : option (option (list out) * list droppable) :=
  match take_eval_p dp t cmds vs [] with
  | Some (TDone outs rest hd d) =>
      match drop_end dp t keep hd rest with
      | (Survives, d') => Some (Some outs, d ++ d')
      | (Unwinds, d') => Some (None, d ++ d')
      | (Aborts, _) => None
      end
  | Some (TPanic rest hd d) =>
      match drop_end dp t false hd rest with
      | (Survives, d') => Some (None, d ++ d')
      | _ => None
      end
  | _ => None
  end.

(** What an operation does when destructors may panic (compare [astep], ProgSpec.v). *)
Inductive astep_p (dp : droppable -> bool) (σ : list aval) : op -> outcome -> list aval -> list droppable -> Prop :=
(* no destructor that runs panics *)
| P_calm : forall o r σ' d, astep σ o r σ' d -> existsb dp d = false -> astep_p dp σ o r σ' d
(* dropping a box, owned value or sequence: its remaining values are never destroyed *)
| P_drop : forall h v d, nth_error σ h = Some v -> v <> ADead -> drop_groups dp (groups_of v) = (Unwinds, d) ->
    astep_p dp σ (ODrop h) Panicked (kill_vals σ [h]) d
(* the sequence is empty afterwards *)
| P_drain : forall h t chk vs old d, nth_error σ h = Some (ASeq t chk vs old) ->
    drop_groups dp (groups_of (ASeq t chk vs old)) = (Unwinds, d) ->
    astep_p dp σ (ODrain h) Panicked (replace_nth σ h (ASeq t chk [] (old ++ starts t vs 0 ++ [total t vs]))) d
(* the new value has been stored *)
| P_assign : forall pl q new t v f b, at_place σ pl = Some (t, v) -> mut_leaf t q = Some f -> leaf v q = Some b ->
    f_drop f = true -> dp b = true ->
    astep_p dp σ (OAssign pl q new) Panicked (put_place σ pl (put v q new)) [b]
(* the destructor of an old controller, number k, panics: it and the controllers before it have been
   replaced, the new controllers after it are dropped *)
| P_controllers : forall pl news hs ha fs vs k, at_place σ pl = Some (TRec KStruct hs ha fs, VRec vs) ->
    lengths_eval fs news -> same_lengths fs (vctrls fs vs) news -> first_bad dp fs (vctrls fs vs) k ->
    existsb dp (drops_of (ctrl_drops (skipn (S k) (ctrl_types fs)) (skipn (S k) news))) = false ->
    astep_p dp σ (OControllers pl news) Panicked
      (put_place σ pl (VRec (with_ctrls fs vs (mixed (S k) news (vctrls fs vs)))))
      (drops_of (ctrl_drops (firstn (S k) (ctrl_types fs)) (vctrls fs vs)) ++
       drops_of (ctrl_drops (skipn (S k) (ctrl_types fs)) (skipn (S k) news)))
(* the lengths do not agree, and one of the new controllers, which are dropped, panics *)
| P_controllers_mismatch : forall pl news hs ha fs vs, at_place σ pl = Some (TRec KStruct hs ha fs, VRec vs) ->
    lengths_eval fs news -> ~ same_lengths fs (vctrls fs vs) news -> panics dp (drops_of (ctrl_drops (ctrl_types fs) news)) = 1%nat ->
    astep_p dp σ (OControllers pl news) Panicked σ (drops_of (ctrl_drops (ctrl_types fs) news))
(* the sequence is empty afterwards *)
| P_take : forall h cmds keep t chk vs old d, nth_error σ h = Some (ASeq t chk vs old) ->
    take_all dp t cmds keep vs = Some (None, d) ->
    astep_p dp σ (OTake h cmds keep) Panicked (replace_nth σ h (ASeq t chk [] (old ++ starts t vs 0 ++ [total t vs]))) d.
(** The operations that abort the process. *)
Inductive aborts (dp : droppable -> bool) (σ : list aval) : op -> Prop :=
(* two elements of the same array have panicking destructors *)
| B_drop : forall h v, nth_error σ h = Some v -> fst (drop_groups dp (groups_of v)) = Aborts -> aborts dp σ (ODrop h)
| B_drain : forall h v, nth_error σ h = Some v -> fst (drop_groups dp (groups_of v)) = Aborts -> aborts dp σ (ODrain h)
(* a constructor or a length expression panics, and one of the values dropped then has a panicking
   destructor *)
| B_construct : forall o σ' d,
    match o with ONewBox _ _ | ONewOwned _ _ | OPush _ _ | OControllers _ _ => True | _ => False end ->
    astep σ o Panicked σ' d -> existsb dp d = true -> aborts dp σ o
(* an old controller panics, and then one of the new ones that are dropped *)
| B_ctrl : forall pl news hs ha fs vs k, at_place σ pl = Some (TRec KStruct hs ha fs, VRec vs) ->
    lengths_eval fs news -> same_lengths fs (vctrls fs vs) news -> first_bad dp fs (vctrls fs vs) k ->
    existsb dp (drops_of (ctrl_drops (skipn (S k) (ctrl_types fs)) (skipn (S k) news))) = true ->
    aborts dp σ (OControllers pl news)
(* two of the new controllers that are dropped panic *)
| B_ctrl_mismatch : forall pl news hs ha fs vs, at_place σ pl = Some (TRec KStruct hs ha fs, VRec vs) ->
    lengths_eval fs news -> ~ same_lengths fs (vctrls fs vs) news -> (2 <= panics dp (drops_of (ctrl_drops (ctrl_types fs) news)))%nat ->
    aborts dp σ (OControllers pl news)
| B_taken : forall h cmds keep t chk vs old, nth_error σ h = Some (ASeq t chk vs old) ->
    take_all dp t cmds keep vs = None -> aborts dp σ (OTake h cmds keep).

(** Excluded is the defect C37: if the destructor of an old controller panics, the array lengths have
    to come out the same also with the first controllers new and the others old. *)
Definition allowed_p (dp : droppable -> bool) (σ : list aval) (o : op) : Prop :=
  allowed σ o /\
  match o with
  | OControllers pl news => forall hs ha fs vs k, at_place σ pl = Some (TRec KStruct hs ha fs, VRec vs) ->
      same_lengths fs (vctrls fs vs) news -> first_bad dp fs (vctrls fs vs) k ->
      same_lengths fs (vctrls fs vs) (mixed (S k) news (vctrls fs vs))
  | _ => True
  end.

(** Programs as in [reach] (ProgSpec.v), whose destructors may panic. [n] counts the heap blocks that
    may have leaked: one per panicking VBox::new, one per mem::forget, and one per box or sequence whose drop
    panicked. *)
Definition leaks (o : op) (n : nat) : nat := match o with ONewBox _ _ | ODrop _ => S n | _ => n end.
Inductive reach_p (dp : droppable -> bool) : world -> list slot -> list aval -> nat -> Prop :=
| RP_start : forall w, w_blocks w = [] -> reach_p dp w [] [] 0
| RP_done : forall w sl σ n o r w' sl' σ' d, reach_p dp w sl σ n -> allowed_p dp σ o ->
    exec_p dp o (w, sl) = DOk r (w', sl') -> astep_p dp σ o (Done r) σ' d ->
    reach_p dp w' sl' σ' (match o with OForget _ => S n | _ => n end)
| RP_panicked : forall w sl σ n o w' sl' σ' d, reach_p dp w sl σ n -> allowed_p dp σ o ->
    exec_p dp o (w, sl) = DPanic (w', sl') -> astep_p dp σ o Panicked σ' d -> reach_p dp w' sl' σ' (leaks o n).

(** ** Book-keeping (compare AccountSpec.v) *)

(** Values with a destructor that are assigned to elements taken from a take_elems iterator, until a
    destructor panics (compare [take_ins], AccountSpec.v). *)
Fixpoint take_ins_p (dp : droppable -> bool) (t : vty) (cmds : list tcmd) (rest : list vval) (hd : list (option vval))
    : list droppable :=
  match cmds with
  | [] => []
  | TNext :: r =>
      match rest with
      | [] => take_ins_p dp t r [] hd
      | v :: rest' => take_ins_p dp t r rest' (hd ++ [Some v])
      end
  | TAssign j q new :: r =>
      match nth_error hd j, mut_leaf t q with
      | Some (Some v), Some f =>
          match leaf v q with
          | Some b => (if f_drop f then [new] else []) ++
              if f_drop f && dp b then [] else take_ins_p dp t r rest (replace_nth hd j (Some (put v q new)))
          | None => []
          end
      | _, _ => []
      end
  | TDrop j :: r =>
      match nth_error hd j with
      | Some (Some v) => if existsb dp (vdrops t v) then [] else take_ins_p dp t r rest (replace_nth hd j None)
      | _ => []
      end
  | TForget j :: r => take_ins_p dp t r rest (replace_nth hd j None)
  | TLen :: r | TRead _ :: r => take_ins_p dp t r rest hd
  end.
(** The values that enter with an operation. An assignment whose destructor panics has stored the new
    value. *)
Inductive enters (dp : droppable -> bool) (σ : list aval) : op -> outcome -> list droppable -> Prop :=
| E_assign : forall pl q new t v f b, at_place σ pl = Some (t, v) -> mut_leaf t q = Some f -> leaf v q = Some b ->
    f_drop f = true -> dp b = true -> enters dp σ (OAssign pl q new) Panicked [new]
| E_take : forall h cmds keep t chk vs old r, nth_error σ h = Some (ASeq t chk vs old) ->
    enters dp σ (OTake h cmds keep) r (take_ins_p dp t cmds vs [])
| E_other : forall o r ins calm, brings σ o r ins calm -> match o with OTake _ _ _ => False | _ => True end ->
    (forall pl q new t v b, o = OAssign pl q new -> r = Panicked -> at_place σ pl = Some (t, v) -> leaf v q <> Some b) ->
    enters dp σ o r ins.
Inductive account_p (dp : droppable -> bool) : world -> list slot -> list aval -> list droppable -> Prop :=
| KP_start : forall w, w_blocks w = [] -> w_log w = [] -> account_p dp w [] [] []
| KP_done : forall w sl σ ins o r w' sl' σ' evs ins', account_p dp w sl σ ins -> allowed_p dp σ o ->
    exec_p dp o (w, sl) = DOk r (w', sl') -> w_log w' = w_log w ++ evs -> astep_p dp σ o (Done r) σ' (drops_of evs) ->
    enters dp σ o (Done r) ins' -> account_p dp w' sl' σ' (ins ++ ins')
| KP_panicked : forall w sl σ ins o w' sl' σ' evs ins', account_p dp w sl σ ins -> allowed_p dp σ o ->
    exec_p dp o (w, sl) = DPanic (w', sl') -> w_log w' = w_log w ++ evs -> astep_p dp σ o Panicked σ' (drops_of evs) ->
    enters dp σ o Panicked ins' -> account_p dp w' sl' σ' (ins ++ ins').
