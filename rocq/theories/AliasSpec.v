(** AliasSpec.v - which references a client may use when. Used to state C64. *)
From Verif Require Export AliasModel.

(** The bytes of a reference. *)
Definition in_ref (x : N) (r : aref) : Prop := r_addr r <= x < r_addr r + r_size r.
Definition refs_apart (r q : aref) : Prop := forall x, in_ref x r -> in_ref x q -> False.
(** A reference to an object has the layout and size of some value of the type; the elements of a sequence
    follow each other, each padded to the alignment of the type. *)
Definition layout_of (t : vty) (l : lay) : Prop := exists v, vok t v /\ l = sp_lay t (vshape v).
Fixpoint elems_size (t : vty) (ls : list lay) : N :=
  match ls with [] => 0 | l :: r => up (lay_size l) (valign t) + elems_size t r end.
Definition sound_ref (r : aref) : Prop :=
  match r_obj r with
  | OBytes _ => True
  | OObj t l => wf_ty t /\ layout_of t l /\ r_size r = lay_size l
  | OElems _ t ls => wf_ty t /\ Forall (layout_of t) ls /\ r_size r = elems_size t ls
  end.
(** At the start the client owns objects and sequences (VBox, Owned, Seq) in separate storage, through raw
    pointers, and has borrowed nothing. *)
Definition owned_root (ln : loan) : Prop :=
  ln_from ln = None /\ ln_live ln = true /\ r_tag (ln_ref ln) = [] /\ r_mut (ln_ref ln) = true /\ sound_ref (ln_ref ln).
Definition alias_start (st : astate) : Prop :=
  fst st = mkBr 0 [([], fun _ => Active)] /\ Forall owned_root (snd st) /\
  forall i j l m, nth_error (snd st) i = Some l -> nth_error (snd st) j = Some m -> i <> j -> refs_apart (ln_ref l) (ln_ref m).

(** The rules of the borrow checker. *)
Definition is_live (ls : list loan) (i : nat) (r : aref) : Prop := exists from, nth_error ls i = Some (mkLn r from true).
(** Nothing that is in use is borrowed from [i]; or only shared references are. *)
Definition not_borrowed (ls : list loan) (i : nat) : Prop :=
  forall j r, nth_error ls j = Some (mkLn r (Some i) true) -> False.
Definition shared_only (ls : list loan) (i : nat) : Prop :=
  forall j r, nth_error ls j = Some (mkLn r (Some i) true) -> r_mut r = false.
Inductive fair (ls : list loan) : aop -> Prop :=
| F_read : forall i r x, is_live ls i r -> shared_only ls i -> in_ref x r -> fair ls (AUse i Rd x)
| F_write : forall i r x, is_live ls i r -> r_mut r = true -> not_borrowed ls i -> in_ref x r -> fair ls (AUse i Wr x)
| F_share : forall i r, is_live ls i r -> shared_only ls i -> (forall k t es, r_obj r <> OElems k t es) -> fair ls (AShare i)
| F_reborrow : forall i r, is_live ls i r -> r_mut r = true -> not_borrowed ls i -> (forall k t es, r_obj r <> OElems k t es) -> fair ls (AReborrow i)
| F_refs : forall i r t l, is_live ls i r -> shared_only ls i -> r_obj r = OObj t l -> fair ls (ARefs i)
| F_muts : forall i r t l, is_live ls i r -> r_mut r = true -> not_borrowed ls i -> r_obj r = OObj t l -> fair ls (AMuts i)
| F_iter : forall i r t es, is_live ls i r -> shared_only ls i -> r_obj r = OElems ESeq t es -> fair ls (AIterate i EIter)
| F_iter_mut : forall i r t es k, is_live ls i r -> r_mut r = true -> not_borrowed ls i -> r_obj r = OElems ESeq t es ->
    k = EIterMut \/ k = ETake -> fair ls (AIterate i k)
| F_next : forall i r k t l es, is_live ls i r -> not_borrowed ls i -> r_obj r = OElems k t (l :: es) -> k <> ESeq -> fair ls (ANext i)
| F_end : forall i r, is_live ls i r -> not_borrowed ls i -> fair ls (AEnd i)
| F_copy : forall i r t l, is_live ls i r -> shared_only ls i -> r_obj r = OObj t l -> fair ls (ACopy i)
| F_set : forall i r hs ha fs l, is_live ls i r -> r_mut r = true -> not_borrowed ls i -> r_obj r = OObj (TRec KStruct hs ha fs) l -> fair ls (ASet i)
| F_drop : forall i r t l d, is_live ls i r -> r_mut r = true -> not_borrowed ls i -> r_obj r = OObj t l -> fair ls (ADrop i d)
| F_init : forall i r t l, is_live ls i r -> r_mut r = true -> not_borrowed ls i -> r_obj r = OObj t l -> fair ls (AInit i).
(** A client that follows the rules. *)
Inductive plays (s : bool) (U : fty -> bool) (st : astate) : astate -> Prop :=
| Y_start : plays s U st st
| Y_step : forall o st1 st2, plays s U st st1 -> fair (snd st1) o -> alias_step s U o st1 = Some st2 -> plays s U st st2.
(** Borrow [j] was made from [i], directly or through others. *)
Inductive derived (ls : list loan) (i j : nat) : Prop :=
| D_one : forall r live, nth_error ls j = Some (mkLn r (Some i) live) -> derived ls i j
| D_more : forall r k live, nth_error ls j = Some (mkLn r (Some k) live) -> derived ls i k -> derived ls i j.
(** A part of an object lies inside a reference. *)
Definition covers (r : aref) (p : part) : Prop := r_addr r <= p_addr p /\ p_addr p + p_size p <= r_addr r + r_size r.
