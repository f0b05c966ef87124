(** PlaceSpec.v - where the objects of a program are. Used to state C55 and C56. *)
From Verif Require Export ProgSpec.

(** Offset of the j-th field, a #[varlen] field or tuple component, in a record whose fields have the
    given shapes; [pos] is where the tail starts. *)
Fixpoint fld_off (fs : flds) (ss : list shape) (pos : N) (j : nat) : option N :=
  match fs, ss, j with
  | FNormal _ _ r, _ :: ss', S j | FLength _ _ r, _ :: ss', S j => fld_off r ss' pos j
  | FVar t r, _ :: _, O => Some (up pos (sp_align t))
  | FVar t r, s :: ss', S j => fld_off r ss' (up pos (sp_align t) + sp_size t s) j
  | FArr f _ r, ShArr n :: ss', S j => fld_off r ss' (up pos (f_align f) + n * f_size f) j
  | _, _, _ => None
  end.
(** Offset of a nested part in an object of a given shape. *)
Fixpoint sub_off (t : vty) (s : shape) (p : path) {struct p} : option N :=
  match p, t with
  | PHere, _ => Some 0
  | PInner p, TNew t => sub_off t s p
  | PFld j p, TRec _ hs _ fs =>
      match s with
      | ShRec ss =>
          match varlen_field fs j, nth_error ss j, fld_off fs ss hs j with
          | Some t', Some s', Some o => option_map (N.add o) (sub_off t' s' p)
          | _, _, _ => None
          end
      | _ => None
      end
  | _, _ => None
  end.
(** The address of the object at a place: the pointer of the box, owned value or sequence, plus an
    offset that depends on the shapes of the values only. *)
Definition place_addr (sl : list slot) (σ : list aval) (pl : place) : option N :=
  match pl with
  | PlObj h p =>
      match nth_error sl h, nth_error σ h with
      | Some (SBox t a), Some (ABox _ v) | Some (SOwn t a), Some (AOwn _ v) =>
          option_map (N.add a) (sub_off t (vshape v) p)
      | _, _ => None
      end
  | PlElem h k p =>
      match nth_error sl h, nth_error σ h with
      | Some (SSeq t _ s), Some (ASeq _ _ vs _) =>
          match nth_error vs k with
          | Some v => option_map (N.add (s_ptr s + total t (firstn k vs) * sp_align t)) (sub_off t (vshape v) p)
          | None => None
          end
      | _, _ => None
      end
  | PlOff h u o p =>
      match nth_error sl h, nth_error σ h with
      | Some (SSeq t _ s), Some (ASeq _ _ vs _) =>
          match index_of o (starts t vs 0) with
          | Some k =>
              match nth_error vs k with
              | Some v => option_map (N.add (s_ptr s + o * sp_align t)) (sub_off t (vshape v) p)
              | None => None
              end
          | None => None
          end
      | _, _ => None
      end
  end.

(** The operations after which Rust no longer lets a program use a reference into the value number [h]:
    those that consume it, or borrow it mutably as a whole. *)
Definition disturbs (o : op) (h : nat) : Prop :=
  match o with
  | ONewBox _ p | ONewOwned _ p => In h (moves p)
  | OPush h' p => h = h' \/ In h (moves p)
  | ODrop h' | ODrain h' | OForget h' | OTake h' _ _ => h = h'
  | _ => False
  end.
(** The operations that may move what value number [h] owns: it is a box and becomes an initializer, or
    it is a sequence that is pushed to. *)
Definition relocates (o : op) (h : nat) : Prop :=
  match o with
  | ONewBox _ p | ONewOwned _ p => In h (moves p)
  | OPush h' p => h = h' \/ In h (moves p)
  | _ => False
  end.
(** The operations that give up part of what value number [h] owns without destroying it: the value, an element that
    take_elems() gave, or the iterator, is passed to mem::forget. *)
Definition lets_go (o : op) (h : nat) : Prop :=
  match o with
  | OForget h' => h = h'
  | OTake h' cmds keep => h = h' /\ (keep = true \/ exists j, In (TForget j) cmds)
  | _ => False
  end.
(** Memory that is still allocated. *)
Definition allocated (w : world) (a n : N) : Prop :=
  exists b, In b (w_blocks w) /\ b_base b <= a /\ a + n <= b_base b + b_size b.
(** The state after an operation that returned or panicked (and was caught). *)
Definition ends (x : res config out) (r : outcome) (w' : world) (sl' : list slot) : Prop :=
  match r with
  | Done o => x = Ok o (w', sl')
  | Panicked => x = Panic (w', sl')
  end.
(** [quiet h w sl σ w' sl' σ']: a program in state [w], [sl] (whose values are [σ]) executes any
    sequence of allowed operations that do not disturb value number [h], each of which returns or
    panics (and is caught). *)
Inductive quiet (h : nat) (w : world) (sl : list slot) (σ : list aval) : world -> list slot -> list aval -> Prop :=
| Q_start : quiet h w sl σ w sl σ
| Q_step : forall w1 sl1 σ1 o r w2 sl2 σ2 d, quiet h w sl σ w1 sl1 σ1 ->
    allowed σ1 o -> ~ disturbs o h -> ends (exec o (w1, sl1)) r w2 sl2 -> astep σ1 o r σ2 d ->
    quiet h w sl σ w2 sl2 σ2.
