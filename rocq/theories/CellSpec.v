(** CellSpec.v - used to state C65. *)
From Verif Require Export CellModel ProgSpec.

(** The type of the leaf a path leads to, through shared references: like [mut_leaf], and the layout controllers. *)
Fixpoint ref_leaf (t : vty) (p : path) : option fty :=
  match t, p with
  | TFixed f, PHere => Some f
  | TArray f _, PIdx _ => Some f
  | TNew t, PInner p => ref_leaf t p
  | TRec _ _ _ fs, PFld j p => ref_leaf_fld fs j p
  | _, _ => None
  end
with ref_leaf_fld (fs : flds) (j : nat) (p : path) : option fty :=
  match fs, j with
  | FNormal _ f _, O | FLength _ f _, O => match p with PHere => Some f | _ => None end
  | FVar t _, O => ref_leaf t p
  | FArr f _ _, O => match p with PIdx _ => Some f | _ => None end
  | FNormal _ _ r, S j | FLength _ _ r, S j | FVar _ r, S j | FArr _ _ r, S j => ref_leaf_fld r j p
  | _, _ => None
  end.
(** The value with the header of [v'] and the tail of [v]. (The header of an Array is its length, which is not
    part of the value.) *)
Fixpoint with_header_flds (fs : flds) (vs vs' : list vval) : list vval :=
  match fs, vs, vs' with
  | FNormal _ _ r, _ :: vs, v' :: vs' | FLength _ _ r, _ :: vs, v' :: vs' => v' :: with_header_flds r vs vs'
  | FVar _ r, v :: vs, _ :: vs' | FArr _ _ r, v :: vs, _ :: vs' => v :: with_header_flds r vs vs'
  | _, vs, _ => vs
  end.
Fixpoint with_header (t : vty) (v v' : vval) : vval :=
  match t, v, v' with
  | TFixed _, _, _ => v'
  | TArray _ _, _, _ => v
  | TNew t, VNew v, VNew v' => VNew (with_header t v v')
  | TRec _ _ _ fs, VRec vs, VRec vs' => VRec (with_header_flds fs vs vs')
  | _, _, _ => v
  end.
(** The header of [v'] suits the tail of [v]: an Array has the length of the other; the fields of a record are a
    value of its type, that is, every array has the length its length expression now says. *)
Fixpoint header_suits (t : vty) (v v' : vval) : Prop :=
  match t, v, v' with
  | TArray _ _, VArr xs, VArr xs' => len xs' = len xs
  | TNew t, VNew v, VNew v' => header_suits t v v'
  | TRec _ _ _ _, _, _ => vok t (with_header t v v')
  | _, _, _ => True
  end.
(** Programs that, besides the operations of [reach], change leaves through shared references and swap objects of their
    own types, as long as what they change remains a value of its type. *)
Inductive reach_cells : world -> list slot -> list aval -> nat -> Prop :=
| RC_start : forall w, w_blocks w = [] -> reach_cells w [] [] 0
| RC_done : forall w sl σ n o r w' sl' σ' d, reach_cells w sl σ n -> allowed σ o ->
    exec o (w, sl) = Ok r (w', sl') -> astep σ o (Done r) σ' d ->
    reach_cells w' sl' σ' (match o with OForget _ => S n | _ => n end)
| RC_panicked : forall w sl σ n o w' sl' σ' d, reach_cells w sl σ n -> allowed σ o ->
    exec o (w, sl) = Panic (w', sl') -> astep σ o Panicked σ' d ->
    reach_cells w' sl' σ' (match o with ONewBox _ _ => S n | _ => n end)
| RC_cell : forall w sl σ n pl q new t v f w' sl', reach_cells w sl σ n -> at_place σ pl = Some (t, v) ->
    ref_leaf t q = Some f -> len new = f_size f -> vok t (put v q new) ->
    exec_cell pl q new (w, sl) = Ok OutUnit (w', sl') -> reach_cells w' sl' (put_place σ pl (put v q new)) n
| RC_swap : forall w sl σ n pl pl' t v v' w' sl', reach_cells w sl σ n -> at_place σ pl = Some (t, v) -> at_place σ pl' = Some (t, v') ->
    away σ pl pl' -> header_suits t v v' -> header_suits t v' v ->
    exec (OSwapObj pl pl') (w, sl) = Ok OutUnit (w', sl') ->
    reach_cells w' sl' (put_place (put_place σ pl (with_header t v v')) pl' (with_header t v' v)) n.
