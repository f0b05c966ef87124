(** ParSpec.v - what threads that hold references to different objects compute. Used to state C56. *)
From Verif Require Export ParModel PlaceSpec.

(** The values a command may be given. *)
Definition cmd_ok (t : vty) (c : cmd) : Prop :=
  match c with
  | CRead => True
  | CAssign q new => exists f, mut_leaf t q = Some f /\ len new = f_size f
  | CControllers news => exists hs ha fs, t = TRec KStruct hs ha fs /\ ctrls_ok fs news
  end.
(** [cmd_step t v c r v' d]: command [c] on an object of type [t] with value [v], nobody else being
    around, ends with outcome [r] and value [v'], destroying the values [d]. *)
Inductive cmd_step (t : vty) (v : vval) : cmd -> outcome -> vval -> list (list cell) -> Prop :=
| CS_read : cmd_step t v CRead (Done (OutVal v)) v []
| CS_assign : forall q new f b, mut_leaf t q = Some f -> leaf v q = Some b ->
    cmd_step t v (CAssign q new) (Done OutUnit) (put v q new) (if f_drop f then [b] else [])
| CS_range : forall q new, leaf v q = None -> cmd_step t v (CAssign q new) Panicked v []
| CS_ctrl : forall news hs ha fs vs, t = TRec KStruct hs ha fs -> v = VRec vs ->
    lengths_eval fs news -> same_lengths fs (vctrls fs vs) news ->
    cmd_step t v (CControllers news) (Done (OutBool true)) (VRec (with_ctrls fs vs news))
      (drops_of (ctrl_drops (ctrl_types fs) (vctrls fs vs)))
| CS_mismatch : forall news hs ha fs vs, t = TRec KStruct hs ha fs -> v = VRec vs ->
    lengths_eval fs news -> ~ same_lengths fs (vctrls fs vs) news ->
    cmd_step t v (CControllers news) (Done (OutBool false)) v (drops_of (ctrl_drops (ctrl_types fs) news))
| CS_length : forall news hs ha fs vs, t = TRec KStruct hs ha fs -> v = VRec vs ->
    ~ lengths_eval fs news ->
    cmd_step t v (CControllers news) Panicked v (drops_of (ctrl_drops (ctrl_types fs) news)).
(** [solo t v cs outs dead v' d]: running the commands [cs] alone on value [v] gives the results [outs],
    ends in a panic or not, leaves value [v'] and destroys [d]. *)
Inductive solo (t : vty) (v : vval) : list cmd -> list out -> bool -> vval -> list (list cell) -> Prop :=
| So_nil : solo t v [] [] false v []
| So_done : forall cs outs v1 d c o v2 d2, solo t v cs outs false v1 d -> cmd_step t v1 c (Done o) v2 d2 ->
    solo t v (cs ++ [c]) (outs ++ [o]) false v2 (d ++ d2)
| So_panic : forall cs outs v1 d c v2 d2, solo t v cs outs false v1 d -> cmd_step t v1 c Panicked v2 d2 ->
    solo t v (cs ++ [c]) outs true v2 (d ++ d2)
| So_dead : forall cs outs v1 d c, solo t v cs outs true v1 d -> solo t v (cs ++ [c]) outs true v1 d.
(** A thread that is about to start: the place it refers to, and what it will do. *)
Record task := mkTask { tk_place : place; tk_cmds : list cmd }.
Definition read_only (k : task) : Prop := forall c, In c (tk_cmds k) -> c = CRead.
(** What Rust's borrow rules say about the tasks: two of them refer to objects that are away from each other, or both
    only read. *)
Definition separate (σ : list aval) (ks : list task) : Prop :=
  forall i j k k', nth_error ks i = Some k -> nth_error ks j = Some k' -> i <> j ->
    away σ (tk_place k) (tk_place k') \/ (read_only k /\ read_only k').
(** The threads as they are started: the reference of each is evaluated, nothing is done yet. *)
Definition spawned (w : world) (sl : list slot) (k : task) (th : thread) : Prop :=
  exists t a, resolve sl (tk_place k) w = Ok (t, a) w /\ th = mkTh t a (tk_cmds k) [] false.
