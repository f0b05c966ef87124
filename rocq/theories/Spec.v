(** Spec.v - the specification side: unbounded arithmetic, what a value is, what its layout is,
    what it means for memory to hold it, what an initializer describes. No function of the model
    is used here, only its data types. *)
From Verif Require Export SeqModel.

(** ** Alignment and placement *)

(** The smallest multiple of [al] that is at least [x]. *)
Definition up (x al : N) : N := (x + (al - 1)) / al * al.

(** The alignment of a type: the largest alignment of any of its parts. *)
Fixpoint sp_align (t : vty) : N :=
  match t with
  | TFixed f => f_align f
  | TArray f k => N.max (len_size k) (f_align f)
  | TNew t => sp_align t
  | TRec _ _ ha fs => N.max ha (sp_falign fs)
  end
with sp_falign (fs : flds) : N :=
  match fs with
  | FNil => 1
  | FNormal _ _ r | FLength _ _ r => sp_falign r
  | FVar t r => N.max (sp_align t) (sp_falign r)
  | FArr f _ r => N.max (f_align f) (sp_falign r)
  end.

(** The lengths of the arrays of an object are all that its layout depends on. *)
Inductive shape := ShFix | ShArr (n : N) | ShRec (ss : list shape).
Fixpoint vshape (v : vval) : shape :=
  match v with
  | VFix _ => ShFix
  | VArr xs => ShArr (len xs)
  | VNew v => vshape v
  | VRec vs => ShRec (map vshape vs)
  end.

(** Size of an object: header, then each tail part at the next multiple of its alignment. *)
Fixpoint sp_size (t : vty) (s : shape) : N :=
  match t, s with
  | TFixed f, _ => f_size f
  | TArray f k, ShArr n => up (len_size k) (f_align f) + n * f_size f
  | TNew t, s => sp_size t s
  | TRec _ hs _ fs, ShRec ss => sp_end fs ss hs
  | _, _ => 0
  end
with sp_end (fs : flds) (ss : list shape) (pos : N) : N :=
  match fs, ss with
  | FNormal _ _ r, _ :: ss' | FLength _ _ r, _ :: ss' => sp_end r ss' pos
  | FVar t r, s :: ss' => sp_end r ss' (up pos (sp_align t) + sp_size t s)
  | FArr f _ r, ShArr n :: ss' => sp_end r ss' (up pos (f_align f) + n * f_size f)
  | _, _ => pos
  end.

(** The full layout (offset of every part). *)
Fixpoint sp_lay (t : vty) (s : shape) : lay :=
  match t, s with
  | TFixed f, _ => LyFix (f_size f)
  | TArray f k, ShArr n =>
      LyArr (up (len_size k) (f_align f)) n (up (len_size k) (f_align f) + n * f_size f)
  | TNew t, s => sp_lay t s
  | TRec _ hs _ fs, ShRec ss => LyRec (sp_end fs ss hs) (sp_tail fs ss hs)
  | _, _ => LyLen 0
  end
with sp_tail (fs : flds) (ss : list shape) (pos : N) : list (N * lay) :=
  match fs, ss with
  | FNormal _ _ r, _ :: ss' | FLength _ _ r, _ :: ss' => sp_tail r ss' pos
  | FVar t r, s :: ss' =>
      (up pos (sp_align t), sp_lay t s) :: sp_tail r ss' (up pos (sp_align t) + sp_size t s)
  | FArr f _ r, ShArr n :: ss' =>
      (up pos (f_align f), LyLen n) :: sp_tail r ss' (up pos (f_align f) + n * f_size f)
  | _, _ => []
  end.

(** All offsets and sizes that occur in a layout. *)
Fixpoint lay_numbers (l : lay) : list N :=
  match l with
  | LyFix size => [size]
  | LyArr off _ size => [off; size]
  | LyRec size es => size :: concat (map (fun '(off, l) => off :: lay_numbers l) es)
  | LyLen _ => []
  end.
(** Every single part (header fields, length fields, array elements, recursively) that a layout
    places, for an object at address [o]: (address, size, alignment). *)
Definition part : Type := N * N * N.
Definition p_addr (p : part) : N := fst (fst p).
Definition p_size (p : part) : N := snd (fst p).
Definition p_align (p : part) : N := snd p.
Definition array_parts (f : fty) (o n : N) : list part :=
  map (fun i => (o + i * f_size f, f_size f, f_align f)) (upto n).
Fixpoint parts (t : vty) (l : lay) (o : N) : list part :=
  match t, l with
  | TFixed f, LyFix _ => [(o, f_size f, f_align f)]
  | TArray f k, LyArr off n _ => (o, len_size k, len_size k) :: array_parts f (o + off) n
  | TNew t, l => parts t l o
  | TRec _ _ _ fs, LyRec _ es => parts_flds fs es o
  | _, _ => []
  end
with parts_flds (fs : flds) (es : list (N * lay)) (o : N) : list part :=
  match fs, es with
  | FNormal off f r, es | FLength off f r, es => (o + off, f_size f, f_align f) :: parts_flds r es o
  | FVar t r, (off, l) :: es' => parts t l (o + off) ++ parts_flds r es' o
  | FArr f _ r, (off, LyLen n) :: es' => array_parts f (o + off) n ++ parts_flds r es' o
  | _, _ => []
  end.
(** The tail parts of a record, in declaration order: (offset, size). *)
Fixpoint tail_ranges (fs : flds) (es : list (N * lay)) : list (N * N) :=
  match fs, es with
  | FNormal _ _ r, es | FLength _ _ r, es => tail_ranges r es
  | FVar _ r, (off, l) :: es' => (off, lay_size l) :: tail_ranges r es'
  | FArr f _ r, (off, LyLen n) :: es' => (off, n * f_size f) :: tail_ranges r es'
  | _, _ => []
  end.
Definition parts_apart (p q : part) : Prop :=
  p_addr p + p_size p <= p_addr q \/ p_addr q + p_size q <= p_addr p.

(** ** Well-formed types (what rustc guarantees) *)

Definition pow2 (a : N) : Prop := exists k, k <= 29 /\ a = 2 ^ k.
Definition fty_ok (f : fty) : Prop :=
  pow2 (f_align f) /\ f_size f mod f_align f = 0 /\ f_size f <= ISIZE_MAX /\
  forall v v', f_clone f v = Some v' -> len v = f_size f -> len v' = f_size f.

(** Header fields: (offset, type) of ordinary and layout-controlling fields. *)
Fixpoint head_fields (fs : flds) : list (N * fty) :=
  match fs with
  | FNil => []
  | FNormal off f r | FLength off f r => (off, f) :: head_fields r
  | FVar _ r | FArr _ _ r => head_fields r
  end.
Definition hf_disjoint (x y : N * fty) : Prop :=
  fst x + f_size (snd x) <= fst y \/ fst y + f_size (snd y) <= fst x.
Definition header_ok (hs ha : N) (fs : flds) : Prop :=
  pow2 ha /\ hs mod ha = 0 /\ hs <= ISIZE_MAX /\
  (forall off f, In (off, f) (head_fields fs) ->
     off mod f_align f = 0 /\ off + f_size f <= hs /\ f_align f <= ha) /\
  ForallOrdPairs hf_disjoint (head_fields fs).
(** A tuple has an empty header and only variable-length components, at least one. *)
Fixpoint all_var (fs : flds) : Prop :=
  match fs with FNil => True | FVar _ r => all_var r | _ => False end.

Fixpoint wf_ty (t : vty) : Prop :=
  match t with
  | TFixed f => fty_ok f
  | TArray f _ => fty_ok f
  | TNew t => wf_ty t
  | TRec kd hs ha fs =>
      header_ok hs ha fs /\ wf_flds fs /\
      match kd with KTuple => hs = 0 /\ ha = 1 /\ fs <> FNil /\ all_var fs | KStruct => True end
  end
with wf_flds (fs : flds) : Prop :=
  match fs with
  | FNil => True
  | FNormal _ f r | FLength _ f r => fty_ok f /\ wf_flds r
  | FVar t r => wf_ty t /\ wf_flds r
  | FArr f _ r => fty_ok f /\ wf_flds r
  end.

(** ** Values *)

(** The values of the layout-controlling fields of a record value. *)
Fixpoint vctrls (fs : flds) (vs : list vval) : list (list cell) :=
  match fs, vs with
  | FLength _ _ r, VFix bs :: vs' => bs :: vctrls r vs'
  | FNormal _ _ r, _ :: vs' | FVar _ r, _ :: vs' | FArr _ _ r, _ :: vs' => vctrls r vs'
  | _, _ => []
  end.

(** [v] is a value of type [t]: leaves have the right number of bytes, array lengths fit their
    length type / agree with the length expression. *)
Definition elems_ok (f : fty) (xs : list (list cell)) : Prop := Forall (fun x => len x = f_size f) xs.
(** The length expression with result [e] evaluates (a result that is no usize stands for a panic), to
    [n]. *)
Definition length_is (n e : N) : Prop := n = e /\ e < W.
Fixpoint vok (t : vty) (v : vval) : Prop :=
  match t, v with
  | TFixed f, VFix bs => len bs = f_size f
  | TArray f k, VArr xs => elems_ok f xs /\ len xs < len_lim k
  | TNew t, VNew v => vok t v
  | TRec _ _ _ fs, VRec vs => vok_flds fs vs (vctrls fs vs)
  | _, _ => False
  end
with vok_flds (fs : flds) (vs : list vval) (cs : list (list cell)) : Prop :=
  match fs, vs with
  | FNil, [] => True
  | FNormal _ f r, VFix bs :: vs' | FLength _ f r, VFix bs :: vs' =>
      len bs = f_size f /\ vok_flds r vs' cs
  | FVar t r, v :: vs' => vok t v /\ vok_flds r vs' cs
  | FArr f lf r, VArr xs :: vs' => elems_ok f xs /\ length_is (len xs) (lf cs) /\ vok_flds r vs' cs
  | _, _ => False
  end.

(** Memory [m] holds value [v] of type [t] at address [a]. *)
Fixpoint repr (m : N -> cell) (t : vty) (a : N) (v : vval) : Prop :=
  match t, v with
  | TFixed f, VFix bs => rd m a (f_size f) = bs
  | TArray f k, VArr xs =>
      rd m a (len_size k) = enc_le (N.to_nat (len_size k)) (len xs) /\
      rd m (a + up (len_size k) (f_align f)) (len xs * f_size f) = concat xs
  | TNew t, VNew v => repr m t a v
  | TRec _ hs _ fs, VRec vs => repr_flds m fs a vs hs
  | _, _ => False
  end
with repr_flds (m : N -> cell) (fs : flds) (a : N) (vs : list vval) (pos : N) : Prop :=
  match fs, vs with
  | FNil, [] => True
  | FNormal off f r, VFix bs :: vs' | FLength off f r, VFix bs :: vs' =>
      rd m (a + off) (f_size f) = bs /\ repr_flds m r a vs' pos
  | FVar t r, v :: vs' =>
      repr m t (a + up pos (sp_align t)) v /\
      repr_flds m r a vs' (up pos (sp_align t) + sp_size t (vshape v))
  | FArr f lf r, VArr xs :: vs' =>
      rd m (a + up pos (f_align f)) (len xs * f_size f) = concat xs /\
      repr_flds m r a vs' (up pos (f_align f) + len xs * f_size f)
  | _, _ => False
  end.

Definition vsize (t : vty) (v : vval) : N := sp_size t (vshape v).

(** The values with a destructor inside [v], in declaration / index order. *)
Fixpoint vdrops (t : vty) (v : vval) : list (list cell) :=
  match t, v with
  | TFixed f, VFix bs => if f_drop f then [bs] else []
  | TArray f _, VArr xs => if f_drop f then xs else []
  | TNew t, VNew v => vdrops t v
  | TRec _ _ _ fs, VRec vs => vdrops_flds fs vs
  | _, _ => []
  end
with vdrops_flds (fs : flds) (vs : list vval) : list (list cell) :=
  match fs, vs with
  | FNormal _ f r, VFix bs :: vs' | FLength _ f r, VFix bs :: vs' =>
      (if f_drop f then [bs] else []) ++ vdrops_flds r vs'
  | FVar t r, v :: vs' => vdrops t v ++ vdrops_flds r vs'
  | FArr f _ r, VArr xs :: vs' => (if f_drop f then xs else []) ++ vdrops_flds r vs'
  | _, _ => []
  end.

(** ** Storage *)

(** Live allocations are non-empty, inside the address space, pairwise disjoint. *)
Definition blocks_apart (b c : block) : Prop :=
  b_base b + b_size b <= b_base c \/ b_base c + b_size c <= b_base b.
Definition wf_blocks (bl : list block) : Prop :=
  (forall b, In b bl -> b_base b <> 0 /\ 0 < b_size b /\ b_base b + b_size b < W) /\
  ForallOrdPairs blocks_apart bl.

(** [n] bytes at [a] are inside one live allocation. *)
Definition live (bl : list block) (a n : N) : Prop :=
  n = 0 \/ exists b, In b bl /\ b_base b <= a /\ a + n <= b_base b + b_size b.

(** Storage for an object: non-null, aligned, inside the address space, live. *)
Definition place_ok (bl : list block) (t : vty) (a size : N) : Prop :=
  a <> 0 /\ a mod sp_align t = 0 /\ a + size < W /\ live bl a size.

(** A live object of type [t] with value [v] at address [a]. *)
Definition obj_at (w : world) (t : vty) (a : N) (v : vval) : Prop :=
  vok t v /\ place_ok (w_blocks w) t a (vsize t v) /\ repr (w_mem w) t a v.

(** Two byte ranges do not overlap. *)
Definition apart (a n b k : N) : Prop := n = 0 \/ k = 0 \/ a + n <= b \/ b + k <= a.

(** Nothing outside [a, a+n) differs between two memories. *)
Definition same_outside (m m' : N -> cell) (a n : N) : Prop :=
  forall x, x < a \/ a + n <= x -> m' x = m x.
(** The blocks with the given base addresses are gone, the others are unchanged. *)
Definition without (bl : list block) (bases : list N) : list block :=
  filter (fun b => negb (existsb (N.eqb (b_base b)) bases)) bl.

(** ** Initializers *)

(** Well-typed array initializer for element type f. *)
Definition gen_ok (f : fty) (g : N -> option (list cell)) : Prop :=
  forall i v, g i = Some v -> len v = f_size f.
Definition aok (f : fty) (ai : ainit) : Prop :=
  match ai with
  | AFillSeq g | AFillDefault g | AIterPrefix g => gen_ok f g
  | ACopyFrom vs => elems_ok f vs /\ f_drop f = false    (* T: Copy *)
  | ACloneFrom vs | AMoveFrom vs => elems_ok f vs
  | ACopyAt _ k vs => elems_ok f vs /\ len vs = k /\ k < W /\ f_drop f = false
  | ACloneAt _ k vs => elems_ok f vs /\ len vs = k /\ k < W
  (* the safety contract of the trait: if initialize() returns, it has written every slot *)
  | AUser ws fin =>
      (forall n i v, In (i, v) (ws n) -> len v = f_size f) /\
      (forall n i, fin n = true -> i < n -> exists v, In (i, v) (ws n))
  end.
(** Types made of [Copy] data only (what the VCopy trait stands for): nothing in them has a
    destructor. *)
Fixpoint plain (t : vty) : Prop :=
  match t with
  | TFixed f | TArray f _ => f_drop f = false
  | TNew t => plain t
  | TRec _ _ _ fs => plain_flds fs
  end
with plain_flds (fs : flds) : Prop :=
  match fs with
  | FNil => True
  | FNormal _ f r | FLength _ f r | FArr f _ r => f_drop f = false /\ plain_flds r
  | FVar t r => plain t /\ plain_flds r
  end.

(** What running an array initializer for [n] slots does: the events, and the elements stored
    ([None]: it panics). *)
Fixpoint gen_run (items : list (list event * option (list cell)))
    : list event * option (list (list cell)) :=
  match items with
  | [] => ([], Some [])
  | (pre, None) :: _ => (pre, None)
  | (pre, Some v) :: r => let q := gen_run r in (pre ++ fst q, option_map (cons v) (snd q))
  end.
(** The value last written to slot [i]. *)
Definition last_write (l : list (N * list cell)) (i : N) : option (list cell) :=
  option_map snd (find (fun q => fst q =? i) (rev l)).
Definition drop_events (f : fty) (vs : list (list cell)) : list event :=
  if f_drop f then map EDrop vs else [].
Definition arun (f : fty) (n : N) (ai : ainit) : list event * option (list (list cell)) :=
  match ai with
  | AFillSeq g => gen_run (map (fun i => ([ECall i], g i)) (upto n))
  | AFillDefault g => gen_run (map (fun i => ([ECall i], g i)) (upto n))
  | AIterPrefix g => gen_run (map (fun i => ([ENext], g i)) (upto n))
  | ACopyFrom vs | ACopyAt _ _ vs => ([], if len vs =? n then Some vs else None)
  | ACloneFrom vs | ACloneAt _ _ vs =>
      if len vs =? n then gen_run (map (fun v => ([EClone v], f_clone f v)) vs) else ([], None)
  | AMoveFrom vs => if len vs =? n then ([], Some vs) else (drop_events f vs, None)
  | AUser ws fin =>
      ([], if forallb (fun q => fst q <? n) (ws n) && fin n
           then Some (map (fun i => match last_write (ws n) i with Some v => v | None => [] end) (upto n))
           else None)
  end.

(** The controller values a struct initializer carries. *)
Fixpoint ictrls (fs : flds) (is_ : list init) : list (list cell) :=
  match fs, is_ with
  | FLength _ _ r, IFixed v :: is' => v :: ictrls r is'
  | FNormal _ _ r, _ :: is' | FVar _ r, _ :: is' | FArr _ _ r, _ :: is' => ictrls r is'
  | _, _ => []
  end.

(** Well-typed initializers. The Owned initializer is restricted to types whose Rust header has
    size 1 (for all other types it is broken, see property C12). *)
Fixpoint iwt (t : vty) (i : init) : Prop :=
  match i with
  | ICopy _ v => vok t v /\ plain t
  | IBox _ v => vok t v
  | IOwned _ v => vok t v /\ head_size t = 1
  | _ =>
      match t, i with
      | TFixed f, IFixed v | TFixed f, IFixedClone v | TFixed f, IFixedCloneAt _ v => len v = f_size f
      | TArray f k, ISized n ai => aok f ai /\ n < len_lim k
      | TNew t, INew i => iwt t i
      | TRec _ _ _ fs, IRec is_ => iwt_flds fs is_
      | _, _ => False
      end
  end
with iwt_flds (fs : flds) (is_ : list init) : Prop :=
  match fs, is_ with
  | FNil, [] => True
  | FNormal _ f r, IFixed v :: is' | FLength _ f r, IFixed v :: is' =>
      len v = f_size f /\ iwt_flds r is'
  | FVar t r, i :: is' => iwt t i /\ iwt_flds r is'
  | FArr f _ r, IArrF ai :: is' => aok f ai /\ iwt_flds r is'
  | _, _ => False
  end.

(** The shape an initializer describes. *)
Fixpoint ishape (t : vty) (i : init) : shape :=
  match i with
  | ICopy _ v | IBox _ v | IOwned _ v => vshape v
  | _ =>
      match t, i with
      | TArray _ _, ISized n _ => ShArr n
      | TNew t, INew i => ishape t i
      | TRec _ _ _ fs, IRec is_ => ShRec (ishapes fs is_ (ictrls fs is_))
      | _, _ => ShFix
      end
  end
with ishapes (fs : flds) (is_ : list init) (cs : list (list cell)) : list shape :=
  match fs, is_ with
  | FNormal _ _ r, _ :: is' | FLength _ _ r, _ :: is' => ShFix :: ishapes r is' cs
  | FVar t r, i :: is' => ishape t i :: ishapes r is' cs
  | FArr _ lf r, _ :: is' => ShArr (lf cs) :: ishapes r is' cs
  | _, _ => []
  end.

Definition isize (t : vty) (i : init) : N := sp_size t (ishape t i).
(** No length expression panics on the controllers this initializer carries. *)
Fixpoint ilens (t : vty) (i : init) : bool :=
  match i with
  | ICopy _ _ | IBox _ _ | IOwned _ _ => true
  | _ =>
      match t, i with
      | TNew t, INew i => ilens t i
      | TRec _ _ _ fs, IRec is_ => ilens_flds fs is_ (ictrls fs is_)
      | _, _ => true
      end
  end
with ilens_flds (fs : flds) (is_ : list init) (cs : list (list cell)) : bool :=
  match fs, is_ with
  | FNormal _ _ r, _ :: is' | FLength _ _ r, _ :: is' => ilens_flds r is' cs
  | FVar t r, i :: is' => ilens t i && ilens_flds r is' cs
  | FArr _ lf r, _ :: is' => (lf cs <? W) && ilens_flds r is' cs
  | _, _ => true
  end.

(** The boxes an initializer owns (they are freed when it is used or dropped) and the ranges it
    borrows (vcopy sources; also Owned sources, whose storage is not freed). *)
Definition box_block (t : vty) (a : N) (v : vval) : block := mkB a (vsize t v) (sp_align t) true.
Fixpoint iboxes (t : vty) (i : init) : list block :=
  match i with
  | IBox a v => [box_block t a v]
  | ICopy _ _ | IOwned _ _ => []
  | _ =>
      match t, i with
      | TNew t, INew i => iboxes t i
      | TRec _ _ _ fs, IRec is_ => iboxes_flds fs is_
      | _, _ => []
      end
  end
with iboxes_flds (fs : flds) (is_ : list init) : list block :=
  match fs, is_ with
  | FNormal _ _ r, _ :: is' | FLength _ _ r, _ :: is' | FArr _ _ r, _ :: is' => iboxes_flds r is'
  | FVar t r, i :: is' => iboxes t i ++ iboxes_flds r is'
  | _, _ => []
  end.
Definition ibases (t : vty) (i : init) : list N := map b_base (iboxes t i).
Definition ibases_flds (fs : flds) (is_ : list init) : list N := map b_base (iboxes_flds fs is_).

(** Every address an initializer refers to holds the value it is supposed to hold. [P a n] is an
    extra requirement on each referenced range. *)
Definition src_ok (bl : list block) (m : N -> cell) (t : vty) (a : N) (v : vval) : Prop :=
  place_ok bl t a (vsize t v) /\ repr m t a v.
(** A slice in memory is like an object with no header and one array of that length. *)
Definition tslice (f : fty) (n : N) : vty := TRec KStruct 0 1 (FArr f (fun _ => n) FNil).
Definition asrc (bl' : list block) (m : N -> cell) (dst n : N) (f : fty) (ai : ainit) : Prop :=
  match ai with
  | ACopyAt a k vs | ACloneAt a k vs =>
      src_ok bl' m (tslice f k) a (VRec [VArr vs]) /\ apart a (vsize (tslice f k) (VRec [VArr vs])) dst n
  | _ => True
  end.
(** [bl] are the live blocks, [bl'] those that remain when the initializer's boxes are freed: the
    borrowed ranges must be in [bl'] (a borrowed object is not inside a box that is being moved). *)
Fixpoint isrc (bl bl' : list block) (m : N -> cell) (dst n : N) (t : vty) (i : init) : Prop :=
  match i with
  | IBox a v => In (box_block t a v) bl /\ src_ok bl m t a v /\ apart a (vsize t v) dst n
  | ICopy a v | IOwned a v => src_ok bl' m t a v /\ apart a (vsize t v) dst n
  | _ =>
      match t, i with
      | TFixed f, IFixedCloneAt a v => src_ok bl' m (TFixed f) a (VFix v) /\ apart a (f_size f) dst n
      | TArray f _, ISized _ ai => asrc bl' m dst n f ai
      | TNew t, INew i => isrc bl bl' m dst n t i
      | TRec _ _ _ fs, IRec is_ => isrc_flds bl bl' m dst n fs is_
      | _, _ => True
      end
  end
with isrc_flds (bl bl' : list block) (m : N -> cell) (dst n : N) (fs : flds) (is_ : list init) : Prop :=
  match fs, is_ with
  | FNormal _ _ r, _ :: is' | FLength _ _ r, _ :: is' => isrc_flds bl bl' m dst n r is'
  | FArr f _ r, i :: is' =>
      match i with IArrF ai => asrc bl' m dst n f ai | _ => True end /\ isrc_flds bl bl' m dst n r is'
  | FVar t r, i :: is' => isrc bl bl' m dst n t i /\ isrc_flds bl bl' m dst n r is'
  | _, _ => True
  end.

(** An initializer that can be used in world [w] to build an object in the unused range
    [dst, dst+n): well-typed, its sources are live objects, its boxes are distinct, and neither
    boxes nor borrowed objects overlap the destination. *)
Definition init_ready (w : world) (t : vty) (i : init) (dst n : N) : Prop :=
  iwt t i /\ NoDup (ibases t i) /\
  isrc (w_blocks w) (without (w_blocks w) (ibases t i)) (w_mem w) dst n t i.

(** The initializer is usable: it is well-typed and its sources are live objects; no destination
    has been chosen yet. *)
Definition usable (w : world) (t : vty) (i : init) : Prop := init_ready w t i 0 0.
(** The object has a layout, and is small enough for core::alloc::Layout. *)
Definition fits (t : vty) (i : init) : bool := ilens t i && (isize t i + (sp_align t - 1) <=? ISIZE_MAX).

(** The initializer that vclone() of a value is (without addresses). *)
Fixpoint clone_init (t : vty) (v : vval) : init :=
  match t, v with
  | TFixed _, VFix bs => IFixedClone bs
  | TArray _ _, VArr xs => ISized (len xs) (ACloneFrom xs)
  | TNew t, VNew v => INew (clone_init t v)
  | TRec _ _ _ fs, VRec vs => IRec (clone_inits fs vs)
  | _, _ => IRec []
  end
with clone_inits (fs : flds) (vs : list vval) : list init :=
  match fs, vs with
  | FVar t r, v :: vs' => clone_init t v :: clone_inits r vs'
  | _, _ => []
  end.
(** The leaf values with destructors that an initializer owns. *)
Definition aowned (f : fty) (ai : ainit) : list (list cell) :=
  match ai with AMoveFrom vs => if f_drop f then vs else [] | _ => [] end.
Fixpoint iowned (t : vty) (i : init) : list (list cell) :=
  match i with
  | ICopy _ _ => []
  | IBox _ v | IOwned _ v => vdrops t v
  | _ =>
      match t, i with
      | TFixed f, IFixed v => if f_drop f then [v] else []
      | TArray f _, ISized _ ai => aowned f ai
      | TNew t, INew i => iowned t i
      | TRec _ _ _ fs, IRec is_ => iowned_flds fs is_
      | _, _ => []
      end
  end
with iowned_flds (fs : flds) (is_ : list init) : list (list cell) :=
  match fs, is_ with
  | FNormal _ f r, IFixed v :: is' | FLength _ f r, IFixed v :: is' =>
      (if f_drop f then [v] else []) ++ iowned_flds r is'
  | FVar t r, i :: is' => iowned t i ++ iowned_flds r is'
  | FArr f _ r, IArrF ai :: is' => aowned f ai ++ iowned_flds r is'
  | _, _ => []
  end.

(** The value an initializer describes ([None]: some closure, iterator, clone or length check
    panics). *)
Fixpoint ival (t : vty) (i : init) : option vval :=
  match i with
  | ICopy _ v | IBox _ v | IOwned _ v => Some v
  | _ =>
      match t, i with
      | TFixed f, IFixed v => Some (VFix v)
      | TFixed f, IFixedClone v | TFixed f, IFixedCloneAt _ v => option_map VFix (f_clone f v)
      | TArray f _, ISized n ai => option_map VArr (snd (arun f n ai))
      | TNew t, INew i => option_map VNew (ival t i)
      | TRec _ _ _ fs, IRec is_ => option_map VRec (ivals fs is_ (ictrls fs is_))
      | _, _ => None
      end
  end
with ivals (fs : flds) (is_ : list init) (cs : list (list cell)) : option (list vval) :=
  match fs, is_ with
  | FNil, [] => Some []
  | FNormal _ _ r, IFixed v :: is' | FLength _ _ r, IFixed v :: is' =>
      option_map (cons (VFix v)) (ivals r is' cs)
  | FVar t r, i :: is' =>
      match ival t i with None => None | Some v => option_map (cons v) (ivals r is' cs) end
  | FArr f lf r, IArrF ai :: is' =>
      match snd (arun f (lf cs) ai) with
      | None => None
      | Some xs => option_map (cons (VArr xs)) (ivals r is' cs)
      end
  | _, _ => None
  end.

(** ** The full run of an initializer, with the order of its effects *)

(** What dropping an unused initializer does. *)
Definition adrop (f : fty) (ai : ainit) : list event :=
  match ai with AMoveFrom vs => drop_events f vs | _ => [] end.
Fixpoint idrop (t : vty) (i : init) : list event :=
  match i with
  | ICopy _ _ => []
  | IBox a v => map EDrop (vdrops t v) ++ [EDealloc a (vsize t v) (sp_align t)]
  | IOwned _ v => map EDrop (vdrops t v)
  | _ =>
      match t, i with
      | TFixed f, IFixed v => drop_events f [v]
      | TArray f _, ISized _ ai => adrop f ai
      | TNew t, INew i => idrop t i
      | TRec _ _ _ fs, IRec is_ => concat (idrops fs is_)
      | _, _ => []
      end
  end
(* one entry per field *)
with idrops (fs : flds) (is_ : list init) : list (list event) :=
  match fs, is_ with
  | FNormal _ f r, IFixed v :: is' | FLength _ f r, IFixed v :: is' =>
      drop_events f [v] :: idrops r is'
  | FVar t r, i :: is' => idrop t i :: idrops r is'
  | FArr f _ r, IArrF ai :: is' => adrop f ai :: idrops r is'
  | _, _ => []
  end.

(** What is dropped when a field of a record panics: a struct drops the already evaluated header
    values (latest first), then the remaining fields in order; a tuple drops the remaining
    components in reverse order. Tail fields already written are leaked. *)
Definition unwinds (kd : reckind) (temps : list event) (rest : list (list event)) : list event :=
  match kd with
  | KTuple => concat (rev rest)
  | KStruct => temps ++ concat rest
  end.

(** The events of using an initializer, and the value it builds ([None]: a panic). *)
Fixpoint irun (t : vty) (i : init) : list event * option vval :=
  match i with
  | ICopy _ v | IOwned _ v => ([], Some v)
  | IBox a v => ([EDealloc a (vsize t v) (sp_align t)], Some v)
  | _ =>
      match t, i with
      | TFixed f, IFixed v => ([], Some (VFix v))
      | TFixed f, IFixedClone v | TFixed f, IFixedCloneAt _ v => ([EClone v], option_map VFix (f_clone f v))
      | TArray f _, ISized n ai => (fst (arun f n ai), option_map VArr (snd (arun f n ai)))
      | TNew t, INew i => (fst (irun t i), option_map VNew (snd (irun t i)))
      | TRec kd _ _ fs, IRec is_ =>
          let q := fruns kd fs is_ (ictrls fs is_) [] in (fst q, option_map VRec (snd q))
      | _, _ => ([], None)
      end
  end
with fruns (kd : reckind) (fs : flds) (is_ : list init) (cs : list (list cell)) (temps : list event)
    : list event * option (list vval) :=
  match fs, is_ with
  | FNil, [] => ([], Some [])
  | FNormal _ f r, IFixed v :: is' | FLength _ f r, IFixed v :: is' =>
      let q := fruns kd r is' cs (drop_events f [v] ++ temps) in
      (fst q, option_map (cons (VFix v)) (snd q))
  | FVar t r, i :: is' =>
      match irun t i with
      | (e, None) => (e ++ unwinds kd temps (idrops r is'), None)
      | (e, Some v) =>
          let q := fruns kd r is' cs temps in (e ++ fst q, option_map (cons v) (snd q))
      end
  | FArr f lf r, IArrF ai :: is' =>
      match arun f (lf cs) ai with
      | (e, None) => (e ++ unwinds kd temps (idrops r is'), None)
      | (e, Some xs) =>
          let q := fruns kd r is' cs temps in (e ++ fst q, option_map (cons (VArr xs)) (snd q))
      end
  | _, _ => ([], None)
  end.

(** ** Clones *)

(** Types with a VClone implementation: everything but define_varlen structs. *)
Fixpoint clonable (t : vty) : Prop :=
  match t with
  | TFixed _ | TArray _ _ => True
  | TNew t => clonable t
  | TRec kd _ _ fs => kd = KTuple /\ clonable_flds fs
  end
with clonable_flds (fs : flds) : Prop :=
  match fs with
  | FNil => True
  | FVar t r => clonable t /\ clonable_flds r
  | _ => False
  end.
(** All leaves of a value, in declaration / index order. *)
Fixpoint vleaves (v : vval) : list (list cell) :=
  match v with
  | VFix bs => [bs]
  | VArr xs => xs
  | VNew v => vleaves v
  | VRec vs => concat (map vleaves vs)
  end.
(** The clone of a list of elements, of a value: every leaf is cloned ([None] if one panics). *)
Fixpoint clone_all (f : fty) (xs : list (list cell)) : option (list (list cell)) :=
  match xs with
  | [] => Some []
  | x :: r =>
      match f_clone f x with
      | None => None
      | Some y => option_map (cons y) (clone_all f r)
      end
  end.
Fixpoint clone_val (t : vty) (v : vval) : option vval :=
  match t, v with
  | TFixed f, VFix bs => option_map VFix (f_clone f bs)
  | TArray f _, VArr xs => option_map VArr (clone_all f xs)
  | TNew t, VNew v => option_map VNew (clone_val t v)
  | TRec _ _ _ fs, VRec vs => option_map VRec (clone_vals fs vs)
  | _, _ => None
  end
with clone_vals (fs : flds) (vs : list vval) : option (list vval) :=
  match fs, vs with
  | FNil, [] => Some []
  | FVar t r, v :: vs' =>
      match clone_val t v with
      | None => None
      | Some v' => option_map (cons v') (clone_vals r vs')
      end
  | _, _ => None
  end.

(** What cloning each leaf gives, in declaration / index order ([None]: the clone panics). *)
Fixpoint leaf_clones (t : vty) (v : vval) : list (option (list cell)) :=
  match t, v with
  | TFixed f, VFix bs => [f_clone f bs]
  | TArray f _, VArr xs => map (f_clone f) xs
  | TNew t, VNew v => leaf_clones t v
  | TRec _ _ _ fs, VRec vs => leaf_clones_flds fs vs
  | _, _ => []
  end
with leaf_clones_flds (fs : flds) (vs : list vval) : list (option (list cell)) :=
  match fs, vs with
  | FVar t r, v :: vs' => leaf_clones t v ++ leaf_clones_flds r vs'
  | _, _ => []
  end.
(** [k] is the position of the first [None]. *)
Definition first_none {A} (l : list (option A)) (k : nat) : Prop :=
  nth_error l k = Some None /\ forall j, (j < k)%nat -> exists y, nth_error l j = Some (Some y).

(** Projections of a log. *)
Fixpoint drops_of (l : list event) : list (list cell) :=
  match l with
  | [] => []
  | EDrop v :: r => v :: drops_of r
  | _ :: r => drops_of r
  end.
Fixpoint clones_of (l : list event) : list (list cell) :=
  match l with
  | [] => []
  | EClone v :: r => v :: clones_of r
  | _ :: r => clones_of r
  end.
Fixpoint frees_of (l : list event) : list block :=
  match l with
  | [] => []
  | EDealloc a s al :: r => mkB a s al true :: frees_of r
  | _ :: r => frees_of r
  end.

(** ** Leaves of a value *)

Fixpoint replace_nth {A} (l : list A) (i : nat) (x : A) : list A :=
  match l, i with
  | [], _ => []
  | _ :: r, O => x :: r
  | y :: r, S i => y :: replace_nth r i x
  end.
(** The leaf at a path, and the value with that leaf replaced. *)
Fixpoint leaf (v : vval) (p : path) : option (list cell) :=
  match v, p with
  | VFix bs, PHere => Some bs
  | VArr xs, PIdx i => nth_error xs (N.to_nat i)
  | VNew v, PInner p => leaf v p
  | VRec vs, PFld j p => match nth_error vs j with Some v => leaf v p | None => None end
  | _, _ => None
  end.
Fixpoint put (v : vval) (p : path) (new : list cell) {struct p} : vval :=
  match v, p with
  | VFix _, PHere => VFix new
  | VArr xs, PIdx i => VArr (replace_nth xs (N.to_nat i) new)
  | VNew v, PInner p => VNew (put v p new)
  | VRec vs, PFld j p =>
      match nth_error vs j with
      | Some v => VRec (replace_nth vs j (put v p new))
      | None => VRec vs
      end
  | _, _ => v
  end.
(** The type of the leaf a mutable path leads to ([None]: there is no such path through muts(),
    mut_slice(), inner_mut(); layout-controlling fields are not mutable). *)
Fixpoint mut_leaf (t : vty) (p : path) : option fty :=
  match t, p with
  | TFixed f, PHere => Some f
  | TArray f _, PIdx _ => Some f
  | TNew t, PInner p => mut_leaf t p
  | TRec _ _ _ fs, PFld j p => mut_leaf_fld fs j p
  | _, _ => None
  end
with mut_leaf_fld (fs : flds) (j : nat) (p : path) : option fty :=
  match fs, j with
  | FNormal _ f _, O => match p with PHere => Some f | _ => None end
  | FVar t _, O => mut_leaf t p
  | FArr f _ _, O => match p with PIdx _ => Some f | _ => None end
  | FNormal _ _ r, S j | FLength _ _ r, S j | FVar _ r, S j | FArr _ _ r, S j => mut_leaf_fld r j p
  | _, _ => None
  end.

(** ** Layout-controlling fields *)

(** The record value with new values in its layout-controlling fields. *)
Fixpoint with_ctrls (fs : flds) (vs : list vval) (news : list (list cell)) : list vval :=
  match fs, vs, news with
  | FLength _ _ r, _ :: vs', n :: news' => VFix n :: with_ctrls r vs' news'
  | FNormal _ _ r, v :: vs', news | FVar _ r, v :: vs', news | FArr _ _ r, v :: vs', news =>
      v :: with_ctrls r vs' news
  | _, vs, _ => vs
  end.
(** All array-length expressions of the struct have the same value for two lists of controllers. *)
Fixpoint same_lengths (fs : flds) (c c' : list (list cell)) : Prop :=
  match fs with
  | FNil => True
  | FNormal _ _ r | FLength _ _ r | FVar _ r => same_lengths r c c'
  | FArr _ lf r => lf c = lf c' /\ same_lengths r c c'
  end.
(** No array-length expression of the struct panics for these controllers. *)
Fixpoint lengths_eval (fs : flds) (c : list (list cell)) : Prop :=
  match fs with
  | FNil => True
  | FNormal _ _ r | FLength _ _ r | FVar _ r => lengths_eval r c
  | FArr _ lf r => lf c < W /\ lengths_eval r c
  end.
(** The types of the controllers. *)
Fixpoint ctrl_types (fs : flds) : list fty :=
  match fs with
  | FNil => []
  | FLength _ f r => f :: ctrl_types r
  | FNormal _ _ r | FVar _ r | FArr _ _ r => ctrl_types r
  end.
Definition ctrls_ok (fs : flds) (cs : list (list cell)) : Prop :=
  Forall2 (fun f c => len c = f_size f) (ctrl_types fs) cs.
(** Events of dropping controllers, in order. *)
Fixpoint ctrl_drops (fl : list fty) (cs : list (list cell)) : list event :=
  match fl, cs with
  | f :: fl', c :: cs' => drop_events f [c] ++ ctrl_drops fl' cs'
  | _, _ => []
  end.
(** Controller number [j] of [cs] has a destructor, which panics. *)
Definition ctrl_panics (dp : list cell -> bool) (fl : list fty) (cs : list (list cell)) (j : nat) : bool :=
  match nth_error fl j, nth_error cs j with Some f, Some c => f_drop f && dp c | _, _ => false end.
(** The first [k] controllers new, the others old. *)
Definition mixed (k : nat) (news olds : list (list cell)) : list (list cell) :=
  firstn k news ++ skipn k olds.

(** ** Framing *)

(** Every live allocation except those with the given base addresses is still live and holds the
    same bytes. *)
Definition untouched (w w' : world) (bases : list N) : Prop :=
  forall b, In b (w_blocks w) -> ~ In (b_base b) bases ->
    In b (w_blocks w') /\ forall x, b_base b <= x < b_base b + b_size b -> w_mem w' x = w_mem w x.

(** ** Sequences *)

(** Number of offsets (units of ALIGN bytes) an element occupies. *)
Definition cells (t : vty) (v : vval) : N := (vsize t v + (sp_align t - 1)) / sp_align t.
Fixpoint total (t : vty) (vs : list vval) : N :=
  match vs with [] => 0 | v :: r => cells t v + total t r end.
(** The offsets of the elements, the first one being at [o]. *)
Fixpoint starts (t : vty) (vs : list vval) (o : N) : list N :=
  match vs with [] => [] | v :: r => o :: starts t r (o + cells t v) end.

(** Bytes of the validity bitmap, and of the whole storage block. *)
Definition bitmap_bytes (cap : N) : N := (cap + 7) / 8.
Definition storage_bytes (t : vty) (chk : bool) (cap : N) : N :=
  cap * sp_align t + (if chk then bitmap_bytes cap else 0).

(** Consecutive elements in memory. *)
Fixpoint elems_at (m : N -> cell) (t : vty) (base : N) (vs : list vval) : Prop :=
  match vs with
  | [] => True
  | v :: r => vok t v /\ repr m t base v /\ elems_at m t (base + cells t v * sp_align t) r
  end.

(** [s] is a sequence with elements [vs]. A sequence that never grew has no storage; otherwise its
    storage is one live block of the right layout, all of whose bitmap bytes are initialised. *)
Definition seq_block (t : vty) (chk : bool) (s : sq) : block :=
  mkB (s_ptr s) (storage_bytes t chk (s_cap s)) (sp_align t) true.
Definition seq_at (w : world) (t : vty) (chk : bool) (s : sq) (vs : list vval) : Prop :=
  s_len s = len vs /\ s_occ s = total t vs /\ s_occ s <= s_cap s /\
  (((s_cap s = 0 /\ 0 < s_ptr s < W) /\ vs = []) \/
   (0 < s_cap s /\ In (seq_block t chk s) (w_blocks w) /\
    storage_bytes t chk (s_cap s) + (sp_align t - 1) <= ISIZE_MAX /\
    s_ptr s mod sp_align t = 0 /\
    elems_at (w_mem w) t (s_ptr s) vs /\
    (chk = true -> forall j, j < bitmap_bytes (s_cap s) ->
       exists b, w_mem w (s_ptr s + s_cap s * sp_align t + j) = By b /\ b < 256))).
(** Bit [o] of the bitmap. *)
Definition bit_at (w : world) (t : vty) (s : sq) (o : N) : bool :=
  match w_mem w (s_ptr s + s_cap s * sp_align t + o / 8) with
  | By b => N.testbit b (o mod 8)
  | Un => false
  end.
(** The bitmap marks exactly the element starts below offset(); above offset() it is clear (the bit
    at offset() itself may be set by a push that panicked). *)
Definition bits_exact (w : world) (t : vty) (s : sq) (vs : list vval) : Prop :=
  0 < s_cap s -> forall o, o < 8 * bitmap_bytes (s_cap s) -> o <> s_occ s ->
    (bit_at w t s o = true <-> In o (starts t vs 0)).
(** The same when some bits may be stale: every element start is marked, and every marked offset is
    an element start or one of [old]. *)
Definition bits_within (w : world) (t : vty) (s : sq) (vs : list vval) (old : list N) : Prop :=
  0 < s_cap s -> forall o, o < 8 * bitmap_bytes (s_cap s) -> o <> s_occ s ->
    (In o (starts t vs 0) -> bit_at w t s o = true) /\
    (bit_at w t s o = true -> In o (starts t vs 0) \/ In o old).
(** The base address of the storage, if there is any. *)
Definition seq_base (s : sq) : list N := if s_cap s =? 0 then [] else [s_ptr s].
(** Bytes of the storage block, if there is one. *)
Definition seq_bytes (t : vty) (chk : bool) (s : sq) : N :=
  if s_cap s =? 0 then 0 else storage_bytes t chk (s_cap s).
(** An initializer that may be pushed to [s]: it is usable and nothing it refers to lies in the
    storage of [s] (the borrow checker enforces this for safe code). *)
Definition push_ready (w : world) (t : vty) (chk : bool) (s : sq) (i : init) : Prop :=
  init_ready w t i (s_ptr s) (seq_bytes t chk s).
(** No object of the type has size 0. *)
Definition nonzst (t : vty) : Prop := forall v, vok t v -> 0 < vsize t v.
(** Number of offsets an initializer needs, and the capacity after a growth to at least [need]
    offsets. *)
Definition icells (t : vty) (i : init) : N := (isize t i + (sp_align t - 1)) / sp_align t.
Definition new_cap (t : vty) (need cap : N) : N :=
  N.max (N.max need ((32 + sp_align t - 1) / sp_align t)) (cap * 2).
(** Consecutive live objects, each starting at the next multiple of the alignment after the
    previous one; an iterator over them. *)
Fixpoint objs_at (w : world) (t : vty) (base : N) (vs : list vval) : Prop :=
  match vs with
  | [] => True
  | v :: r => obj_at w t base v /\ objs_at w t (base + cells t v * sp_align t) r
  end.
Definition iter_at (w : world) (t : vty) (it : iter) (vs : list vval) : Prop :=
  it_len it = len vs /\ it_ptr it + total t vs * sp_align t < W /\ objs_at w t (it_ptr it) vs.
(** The addresses of the elements of a sequence. *)
Definition addrs (t : vty) (base : N) (vs : list vval) : list N :=
  map (fun o => base + o * sp_align t) (starts t vs 0).
(** Initializers that can be pushed one after the other: each is usable, their boxes are distinct,
    and nothing borrowed lies in one of the boxes. *)
Definition all_bases (t : vty) (is_ : list init) : list N := concat (map (ibases t) is_).
Definition inits_ready (w : world) (t : vty) (chk : bool) (s : sq) (is_ : list init) : Prop :=
  NoDup (all_bases t is_) /\
  Forall (fun i => iwt t i /\
    isrc (w_blocks w) (without (w_blocks w) (all_bases t is_)) (w_mem w) (s_ptr s) (seq_bytes t chk s) t i) is_.

(** ** Histories of a sequence *)

(** [hist t chk w s is_]: [s] is a sequence that was created by Seq::new and then pushed to any
    number of times; [is_] are the initializers whose push returned normally, in order. Pushes that
    panicked (and were caught) may come in between, and so may arbitrary other code that does not
    touch the storage of the sequence. *)
Inductive hist (t : vty) (chk : bool) : world -> sq -> list init -> Prop :=
| H_new : forall w, wf_blocks (w_blocks w) -> hist t chk w (seq_new t) []
| H_push : forall w s is_ i w' s',
    hist t chk w s is_ -> push_ready w t chk s i ->
    seq_push t chk i (w, s) = Ok tt (w', s') -> hist t chk w' s' (is_ ++ [i])
| H_fail : forall w s is_ i w' s',
    hist t chk w s is_ -> push_ready w t chk s i ->
    seq_push t chk i (w, s) = Panic (w', s') -> hist t chk w' s' is_
| H_env : forall w s is_ w',
    hist t chk w s is_ -> wf_blocks (w_blocks w') ->
    (forall b, In b (w_blocks w) -> In (b_base b) (seq_base s) ->
       In b (w_blocks w') /\ forall x, b_base b <= x < b_base b + b_size b -> w_mem w' x = w_mem w x) ->
    hist t chk w' s is_.

(** [shist t chk w s vs old]: [s] is a sequence that was created by Seq::new and since then used in
    any way safe code can use it: pushes that return or panic, mutations of its elements (through
    iter_mut, from_offset_mut, ...), calls of try_set_layout_controllers on an element, take_elems,
    and any other code that does not touch its storage. [vs] is the list of its elements. While the
    elements returned by take_elems are alive, their bytes in the storage (but not the bitmap) may be
    changed in any way. [old] collects the offsets that were in use before some take_elems: those of
    the elements, and the one at which the next push would have gone. *)
Inductive shist (t : vty) (chk : bool) : world -> sq -> list vval -> list N -> Prop :=
| S_new : forall w, wf_blocks (w_blocks w) -> shist t chk w (seq_new t) [] []
| S_push : forall w s vs old i v w' s',
    shist t chk w s vs old -> push_ready w t chk s i ->
    seq_push t chk i (w, s) = Ok tt (w', s') -> ival t i = Some v -> shist t chk w' s' (vs ++ [v]) old
| S_fail : forall w s vs old i w' s',
    shist t chk w s vs old -> push_ready w t chk s i ->
    seq_push t chk i (w, s) = Panic (w', s') -> shist t chk w' s' vs old
| S_assign : forall w s vs old k v a p f new w',
    shist t chk w s vs old -> nth_error vs k = Some v -> nth_error (addrs t (s_ptr s) vs) k = Some a ->
    mut_leaf t p = Some f -> len new = f_size f ->
    assign t a p new w = Ok tt w' -> shist t chk w' s (replace_nth vs k (put v p new)) old
| S_controllers : forall w s vs old k us a hs ha fs dp news r w',
    shist t chk w s vs old -> nth_error vs k = Some (VRec us) -> nth_error (addrs t (s_ptr s) vs) k = Some a ->
    t = TRec KStruct hs ha fs -> ctrls_ok fs news ->
    try_set_layout_controllers fs a dp news w = Ok r w' ->
    shist t chk w' s (if r : bool then replace_nth vs k (VRec (with_ctrls fs us news)) else vs) old
| S_take : forall w s vs old it w1 s' w2,
    shist t chk w s vs old -> take_elems t chk (w, s) = Ok it (w1, s') ->
    wf_blocks (w_blocks w2) ->
    (forall b, In b (w_blocks w1) -> In (b_base b) (seq_base s) ->
       In b (w_blocks w2) /\
       forall x, b_base b + s_cap s * sp_align t <= x < b_base b + b_size b -> w_mem w2 x = w_mem w1 x) ->
    shist t chk w2 s' [] (old ++ starts t vs 0 ++ [total t vs])
| S_env : forall w s vs old w',
    shist t chk w s vs old -> wf_blocks (w_blocks w') ->
    (forall b, In b (w_blocks w) -> In (b_base b) (seq_base s) ->
       In b (w_blocks w') /\ forall x, b_base b <= x < b_base b + b_size b -> w_mem w' x = w_mem w x) ->
    shist t chk w' s vs old.

(** The values a list of initializers describes. *)
Definition ivalues (t : vty) (is_ : list init) (vs : list vval) : Prop := map (ival t) is_ = map Some vs.

(** Bytes requested from the allocator in a piece of the log. *)
Fixpoint requested (l : list event) : N :=
  match l with
  | [] => 0
  | EAlloc _ n _ :: r | ERealloc _ _ _ _ n :: r => n + requested r
  | _ :: r => requested r
  end.
(** Number of allocation requests. *)
Fixpoint requests (l : list event) : N :=
  match l with
  | [] => 0
  | EAlloc _ _ _ :: r | ERealloc _ _ _ _ _ :: r => 1 + requests r
  | _ :: r => requests r
  end.

(** ** Boxes *)

(** A VBox at [a] holding [v]: a live object that fills exactly one heap allocation of its size and
    alignment. *)
Definition box_at (w : world) (t : vty) (a : N) (v : vval) : Prop :=
  obj_at w t a v /\ In (box_block t a v) (w_blocks w).

(** [box_hist t w p n]: the VBox at [p] was created by VBox::new, which requested [n] bytes; since
    then any number of mutations through its accessors, calls of try_set_layout_controllers, and
    other code that does not touch its block have been executed. *)
Inductive box_hist (t : vty) : world -> N -> N -> Prop :=
| B_new : forall w i p w' n evs,
    wf_blocks (w_blocks w) -> usable w t i -> vbox_new t i w = Ok p w' ->
    w_log w' = w_log w ++ EAlloc p n (sp_align t) :: evs -> box_hist t w' p n
| B_assign : forall w p n q f new w',
    box_hist t w p n -> mut_leaf t q = Some f -> len new = f_size f ->
    assign t p q new w = Ok tt w' -> box_hist t w' p n
| B_controllers : forall w p n hs ha fs dp news r w',
    box_hist t w p n -> t = TRec KStruct hs ha fs -> ctrls_ok fs news ->
    try_set_layout_controllers fs p dp news w = Ok r w' -> box_hist t w' p n
| B_env : forall w p n w',
    box_hist t w p n -> wf_blocks (w_blocks w') ->
    (forall b, In b (w_blocks w) -> b_base b = p ->
       In b (w_blocks w') /\ forall x, b_base b <= x < b_base b + b_size b -> w_mem w' x = w_mem w x) ->
    box_hist t w' p n.

(** ** Str *)

(** The value of a Str with the bytes [s]. *)
Definition str_val (s : list N) : vval := VNew (VArr (map (fun b => [By b]) s)).
(** Well-formed UTF-8 (Unicode standard, table 3-7). *)
Definition cont (b : N) : Prop := 128 <= b <= 191.
Inductive utf8 : list N -> Prop :=
| U_nil : utf8 []
| U_1 : forall a s, a <= 127 -> utf8 s -> utf8 (a :: s)
| U_2 : forall a b s, 194 <= a <= 223 -> cont b -> utf8 s -> utf8 (a :: b :: s)
| U_3a : forall b c s, 160 <= b <= 191 -> cont c -> utf8 s -> utf8 (224 :: b :: c :: s)
| U_3b : forall a b c s, 225 <= a <= 236 \/ 238 <= a <= 239 -> cont b -> cont c -> utf8 s -> utf8 (a :: b :: c :: s)
| U_3c : forall b c s, 128 <= b <= 159 -> cont c -> utf8 s -> utf8 (237 :: b :: c :: s)
| U_4a : forall b c d s, 144 <= b <= 191 -> cont c -> cont d -> utf8 s -> utf8 (240 :: b :: c :: d :: s)
| U_4b : forall a b c d s, 241 <= a <= 243 -> cont b -> cont c -> cont d -> utf8 s -> utf8 (a :: b :: c :: d :: s)
| U_4c : forall b c d s, 128 <= b <= 143 -> cont c -> cont d -> utf8 s -> utf8 (244 :: b :: c :: d :: s).
