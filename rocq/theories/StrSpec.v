(** StrSpec.v - C52: programs that use Str values. Which programs safe Rust allows (the constructor and
    the inner array of Str are private), and what they do. No memory. *)
From Verif Require Export StrModel ProgSpec.

(** [TStr k] is a newtype of an array of u8; every newtype of an array of u8 counts as a Str here. *)

(** The path leads into the inner array of a Str. *)
Fixpoint enters_str (t : vty) (p : path) {struct p} : Prop :=
  match p with
  | PInner p => (exists k, t = TStr k) \/ match t with TNew t' => enters_str t' p | _ => False end
  | PFld j p =>
      match t with
      | TRec _ _ _ fs => match varlen_field fs j with Some t' => enters_str t' p | None => False end
      | _ => False
      end
  | _ => False
  end.
(** A &str: one of the client's own, or text that is part of an object: a part of another Str, or bytes
    that str::from_utf8 has accepted. *)
Definition str_source (σ : list aval) (q : pinit) : Prop :=
  exists s, utf8 s /\
    (q = PSized (len s) (ACopyFrom (map (fun b => [By b]) s)) \/
     exists pl j lo xs, q = PSizedAt (len s) false pl j lo (len s) /\ elements_at σ pl j = Some (u8, xs) /\
       firstn (length s) (skipn (N.to_nat lo) xs) = map (fun b => [By b]) s).
(** Wherever the expression makes a new Str, it is Str::copy / Str::try_copy of a &str. *)
Fixpoint from_text (σ : list aval) (t : vty) (p : pinit) : Prop :=
  match t, p with
  | TNew t', PWrap q =>
      (forall k, t = TStr k -> str_source σ q) /\ from_text σ t' q
  | TRec _ _ _ fs, PFields ps => from_text_flds σ fs ps
  | _, _ => True
  end
with from_text_flds (σ : list aval) (fs : flds) (ps : list pinit) : Prop :=
  match fs, ps with
  | FVar t r, p :: ps' => from_text σ t p /\ from_text_flds σ r ps'
  | FNormal _ _ r, _ :: ps' | FLength _ _ r, _ :: ps' | FArr _ _ r, _ :: ps' => from_text_flds σ r ps'
  | _, _ => True
  end.
Definition place_path (pl : place) : path := match pl with PlObj _ p | PlElem _ _ p | PlOff _ _ _ p => p end.
Definition place_type (σ : list aval) (pl : place) : option vty :=
  match nth_error σ (place_handle pl) with
  | Some (ABox t _) | Some (AOwn t _) | Some (ASeq t _ _ _) => Some t
  | _ => None
  end.
(** What &mut str promises: its contents stay UTF-8, and keep their length. *)
Definition text_change (g : list N -> list N) : Prop := forall s, utf8 s -> utf8 (g s) /\ length (g s) = length s.
Inductive allowed_s (σ : list aval) : sop -> Prop :=
| LS_plain : forall o, allowed σ o ->
    match o with
    | ONewBox t p | ONewOwned t p => from_text σ t p
    | OPush h p => forall t chk vs old, nth_error σ h = Some (ASeq t chk vs old) -> from_text σ t p
    | OAssign pl q _ => forall t0 t v, place_type σ pl = Some t0 -> at_place σ pl = Some (t, v) ->
        ~ enters_str t0 (place_path pl) /\ ~ enters_str t q
    | OSwap pl q q' => forall t0 t v, place_type σ pl = Some t0 -> at_place σ pl = Some (t, v) ->
        ~ enters_str t0 (place_path pl) /\ ~ enters_str t q /\ ~ enters_str t q'
    | OSwap2 pl q pl' q' =>
        (forall t0 t v, place_type σ pl = Some t0 -> at_place σ pl = Some (t, v) ->
           ~ enters_str t0 (place_path pl) /\ ~ enters_str t q) /\
        (forall t0 t v, place_type σ pl' = Some t0 -> at_place σ pl' = Some (t, v) ->
           ~ enters_str t0 (place_path pl') /\ ~ enters_str t q')
    | _ => True
    end -> allowed_s σ (SPlain o)
| LS_text : forall pl k v, at_place σ pl = Some (TStr k, v) -> allowed_s σ (SText pl)
| LS_edit : forall pl k v g, at_place σ pl = Some (TStr k, v) -> text_change g -> allowed_s σ (SEdit pl g).

Inductive soutcome := SDone (o : sout) | SPanicked.
Inductive astep_s (σ : list aval) : sop -> soutcome -> list aval -> list (list cell) -> Prop :=
| AS_done : forall o r σ' d, astep σ o (Done r) σ' d -> astep_s σ (SPlain o) (SDone (Plain r)) σ' d
| AS_panicked : forall o σ' d, astep σ o Panicked σ' d -> astep_s σ (SPlain o) SPanicked σ' d
| AS_text : forall pl k s, at_place σ pl = Some (TStr k, str_val s) -> astep_s σ (SText pl) (SDone (Text s)) σ []
| AS_edit : forall pl k s g, at_place σ pl = Some (TStr k, str_val s) ->
    astep_s σ (SEdit pl g) (SDone (Plain OutUnit)) (put_place σ pl (str_val (g s))) [].

(** Reachable states of such programs (compare [reach], ProgSpec.v). *)
Inductive reach_s : world -> list slot -> list aval -> nat -> Prop :=
| RS_start : forall w, w_blocks w = [] -> reach_s w [] [] 0
| RS_done : forall w sl σ n o r w' sl' σ' d, reach_s w sl σ n -> allowed_s σ o ->
    exec_s o (w, sl) = Ok r (w', sl') -> astep_s σ o (SDone r) σ' d ->
    reach_s w' sl' σ' (match o with SPlain (OForget _) => S n | _ => n end)
| RS_panicked : forall w sl σ n o w' sl' σ' d, reach_s w sl σ n -> allowed_s σ o ->
    exec_s o (w, sl) = Panic (w', sl') -> astep_s σ o SPanicked σ' d ->
    reach_s w' sl' σ' (match o with SPlain (ONewBox _ _) => S n | _ => n end).
