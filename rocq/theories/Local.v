(** Local.v - a proof device for C61: the functions of the crate that call no user code only depend on the
    parts of memory they are given. For any relation between worlds that is kept by the elementary
    accesses, such a function does the same in related worlds. *)
From Verif Require Export Hidden ReenterSpec.

Record prims (R : world -> world -> Prop) : Prop := mkPrims {
  p_ref : forall a n al, sim R (check_ref a n al);
  p_load : forall a n al, sim R (load a n al);
  p_store : forall a al bs, sim R (store a al bs);
  p_copy : forall src dst n al, sim R (copy_nonoverlapping src dst n al);
  p_copy_bytes : forall src dst n, sim R (copy_bytes src dst n);
  p_fill_zero : forall a n, sim R (fill_zero a n);
  p_dealloc : forall a size align, sim R (dealloc a size align) }.
Record aprims (R : world -> world -> Prop) : Prop := mkAprims {
  p_alloc : forall size align, sim R (alloc size align);
  p_bump : forall size align, sim R (bump_alloc size align);
  p_realloc : forall a size align ns, sim R (realloc a size align ns) }.
Create HintDb lsims.
#[export] Hint Resolve sim_ret sim_panic sim_undef sim_padd sim_pmul p_ref p_load p_store p_copy p_copy_bytes p_fill_zero p_dealloc
  p_alloc p_bump p_realloc : lsims.
Ltac lsim :=
  repeat first
    [ assumption
    | solve [eauto 3 with lsims]
    | apply sim_bind; [|intros ?]
    | apply sim_unwind
    | apply sim_each; intros ?
    | apply sim_mapM; intros ?
    | match goal with
      | |- sim _ (let '(_, _) := ?x in _) => destruct x as [? ?]
      | |- sim _ (match ?x with _ => _ end) => destruct x as [] eqn:?
      | |- sim _ (let _ := _ in _) => cbv zeta
      end ].
Lemma lsim_load_len R (P : prims R) k a : sim R (load_len k a).
Proof. unfold load_len. lsim. Qed.
#[export] Hint Resolve lsim_load_len : lsims.

Lemma lsim_load_ctrls R (P : prims R) fs a : sim R (load_ctrls fs a).
Proof. unfold load_ctrls. lsim. Qed.
#[export] Hint Resolve lsim_load_ctrls : lsims.

Lemma lsim_len_call R (P : prims R) n : sim R (len_call n).
Proof. unfold len_call. lsim. Qed.
#[export] Hint Resolve lsim_len_call : lsims.

Lemma lsim_layout2 R (P : prims R) :
  (forall t a, sim R (calc_layout t a)) /\ (forall fs cs a size, sim R (calc_tail fs cs a size)).
Proof. apply vty_flds_ind; intros; cbn [calc_layout calc_tail]; lsim; auto. all: lsim; auto. all: lsim; auto. Qed.

Lemma lsim_layout R (P : prims R) t a : sim R (calc_layout t a).
Proof. now apply lsim_layout2. Qed.
#[export] Hint Resolve lsim_layout : lsims.

Lemma lsim_init_layout2 R (P : prims R) :
  (forall t i, sim R (init_layout t i)) /\ (forall fs is_ cs size, sim R (init_tail fs is_ cs size)).
Proof. apply vty_flds_ind; intros; cbn [init_layout init_tail]; lsim. Qed.

Lemma lsim_init_layout R (P : prims R) t i : sim R (init_layout t i).
Proof. now apply lsim_init_layout2. Qed.
#[export] Hint Resolve lsim_init_layout : lsims.

Lemma lsim_read_array R (P : prims R) f a off n : sim R (read_array f a off n).
Proof. unfold read_array. lsim. Qed.
#[export] Hint Resolve lsim_read_array : lsims.

Lemma lsim_view2 R (P : prims R) :
  (forall t a, sim R (view t a)) /\ (forall fs a es, sim R (view_flds fs a es)).
Proof. apply vty_flds_ind; intros; cbn [view view_flds]; lsim. Qed.

Lemma lsim_view R (P : prims R) t a : sim R (view t a).
Proof. now apply lsim_view2. Qed.
#[export] Hint Resolve lsim_view : lsims.

Lemma lsim_elem_mut R (P : prims R) f a off n i : sim R (elem_mut f a off n i).
Proof. unfold elem_mut. lsim. Qed.
#[export] Hint Resolve lsim_elem_mut : lsims.

Lemma lsim_locate2 R (P : prims R) :
  (forall t a p, sim R (locate t a p)) /\ (forall fs a es j p, sim R (locate_fld fs a es j p)).
Proof. apply vty_flds_ind; intros; cbn [locate locate_fld]; lsim. Qed.

Lemma lsim_locate R (P : prims R) t a p : sim R (locate t a p).
Proof. now apply lsim_locate2. Qed.
#[export] Hint Resolve lsim_locate : lsims.

Lemma lsim_ref_slice R (P : prims R) f a off n : sim R (ref_slice f a off n).
Proof. unfold ref_slice. lsim. Qed.
#[export] Hint Resolve lsim_ref_slice : lsims.

Lemma lsim_field_slice R (P : prims R) fs : forall a es j, sim R (field_slice fs a es j).
Proof. induction fs; intros; cbn [field_slice]; lsim. Qed.
#[export] Hint Resolve lsim_field_slice : lsims.

Lemma lsim_array_slice R (P : prims R) t a j : sim R (array_slice t a j).
Proof. unfold array_slice. lsim. Qed.
#[export] Hint Resolve lsim_array_slice : lsims.

Lemma lsim_sub_slice R (P : prims R) s lo k : sim R (sub_slice s lo k).
Proof. unfold sub_slice. lsim. Qed.
#[export] Hint Resolve lsim_sub_slice : lsims.

Lemma lsim_vclone2 R (P : prims R) :
  (forall t a, sim R (vclone t a)) /\ (forall fs a es, sim R (vclone_flds fs a es)).
Proof. apply vty_flds_ind; intros; cbn [vclone vclone_flds]; lsim. Qed.

Lemma lsim_vclone R (P : prims R) t a : sim R (vclone t a).
Proof. now apply lsim_vclone2. Qed.
#[export] Hint Resolve lsim_vclone : lsims.

Lemma lsim_bitmask R (P : prims R) size align : sim R (add_bitmask_to_layout size align).
Proof. unfold add_bitmask_to_layout, add_bitmask_lim. lsim. Qed.
#[export] Hint Resolve lsim_bitmask : lsims.

Lemma lsim_alloc_storage R (P : prims R) (AP : aprims R) chk size align : sim R (alloc_storage chk size align).
Proof. unfold alloc_storage. lsim. Qed.
#[export] Hint Resolve lsim_alloc_storage : lsims.

Lemma lsim_grow_storage R (P : prims R) (AP : aprims R) chk ptr os align ns : sim R (grow_storage chk ptr os align ns).
Proof. unfold grow_storage. lsim. Qed.
#[export] Hint Resolve lsim_grow_storage : lsims.

Lemma lsim_mark R (P : prims R) chk ptr cap o align : sim R (mark_offset_valid chk ptr cap o align).
Proof. unfold mark_offset_valid. lsim. Qed.
#[export] Hint Resolve lsim_mark : lsims.

Lemma lsim_clear R (P : prims R) chk ptr cap occ align : sim R (clear_bitmasks chk ptr cap occ align).
Proof. unfold clear_bitmasks. lsim. Qed.
#[export] Hint Resolve lsim_clear : lsims.

Lemma lsim_extended R (P : prims R) chk size align : sim R (extended_size chk size align).
Proof. unfold extended_size. lsim. Qed.
#[export] Hint Resolve lsim_extended : lsims.

Lemma lsim_try_realloc R (P : prims R) (AP : aprims R) chk ptr cap mn align : sim R (try_realloc chk ptr cap mn align).
Proof. unfold try_realloc. lsim. Qed.
#[export] Hint Resolve lsim_try_realloc : lsims.

Lemma lsim_must_realloc R (P : prims R) (AP : aprims R) chk ptr cap mn align : sim R (must_realloc chk ptr cap mn align).
Proof. unfold must_realloc. lsim. Qed.
#[export] Hint Resolve lsim_must_realloc : lsims.

Lemma lsim_next R (P : prims R) t it : sim R (iter_next t it).
Proof. unfold iter_next. lsim. Qed.
#[export] Hint Resolve lsim_next : lsims.

Lemma lsim_collect R (P : prims R) t fuel : forall it, sim R (iter_collect t fuel it).
Proof. induction fuel; intros; cbn [iter_collect]; lsim. Qed.
#[export] Hint Resolve lsim_collect : lsims.

Lemma lsim_contents R (P : prims R) t s : sim R (seq_contents t s).
Proof. unfold seq_contents. lsim. Qed.
#[export] Hint Resolve lsim_contents : lsims.

Lemma lsim_offset_of R (P : prims R) t s e : sim R (offset_of t s e).
Proof. unfold offset_of. lsim. Qed.
#[export] Hint Resolve lsim_offset_of : lsims.

Lemma lsim_from_unchecked R (P : prims R) t s o : sim R (from_offset_unchecked t s o).
Proof. unfold from_offset_unchecked. lsim. Qed.
#[export] Hint Resolve lsim_from_unchecked : lsims.

Lemma lsim_offset_valid R (P : prims R) t s o : sim R (is_offset_valid t s o).
Proof. unfold is_offset_valid. lsim. Qed.
#[export] Hint Resolve lsim_offset_valid : lsims.

Lemma lsim_from_offset R (P : prims R) t s o : sim R (from_offset t s o).
Proof. unfold from_offset. lsim. Qed.
#[export] Hint Resolve lsim_from_offset : lsims.

Lemma lsim_subobject2 R (P : prims R) :
  (forall t a p, sim R (subobject t a p)) /\ (forall fs a es j p, sim R (subobject_fld fs a es j p)).
Proof. apply vty_flds_ind; intros; cbn [subobject subobject_fld]; lsim. Qed.

Lemma lsim_subobject R (P : prims R) t a p : sim R (subobject t a p).
Proof. now apply lsim_subobject2. Qed.
#[export] Hint Resolve lsim_subobject : lsims.

Lemma lsim_resolve R (P : prims R) sl pl : sim R (resolve sl pl).
Proof. unfold resolve. lsim. Qed.
#[export] Hint Resolve lsim_resolve : lsims.

Lemma lsim_slice_init R (P : prims R) sl cl pl j lo k : sim R (slice_init sl cl pl j lo k).
Proof. unfold slice_init. lsim. Qed.
#[export] Hint Resolve lsim_slice_init : lsims.

Lemma lsim_eval R (P : prims R) sl : forall p, sim R (eval sl p).
Proof.
  fix IH 1. intros [v|v|n ai|ai|n cl pl j lo k|cl pl j lo k|h|pl|pl|p|ps]; cbn [eval]; lsim.
  induction ps as [|p ps IHps]; [apply sim_ret|]. apply sim_bind; [apply IH|]. intros i. apply sim_bind; [exact IHps|]. intros; apply sim_ret.
Qed.
#[export] Hint Resolve lsim_eval : lsims.

Lemma lsim_mem_swap R (P : prims R) a b n al : sim R (mem_swap a b n al).
Proof. unfold mem_swap. lsim. Qed.
#[export] Hint Resolve lsim_mem_swap : lsims.

Lemma lsim_swap_leaves R (P : prims R) t a q t' a' q' : sim R (swap_leaves t a q t' a' q').
Proof. unfold swap_leaves. lsim. Qed.
#[export] Hint Resolve lsim_swap_leaves : lsims.
(** ** operations without user code *)
Definition quiet (o : op) : bool :=
  match o with
  | ONewBox _ _ | ONewOwned _ _ | OPush _ _ | ODrop _ | OAssign _ _ _ | OControllers _ _ | ODrain _ | OTake _ _ _ => false
  | _ => true
  end.
Definition res_rel {X A} (R : world -> world -> Prop) (r rv : res (world * X) A) : Prop :=
  match rv with
  | Ok a (wv, x) => exists w, r = Ok a (w, x) /\ R w wv
  | Panic (wv, x) => exists w, r = Panic (w, x) /\ R w wv
  | UB u => u = UOob \/ u = UDealloc \/ r = UB u
  end.
Lemma lsim_call {A} R (m : M world A) k kp w wv : sim R m -> R w wv -> res_rel R (call m k kp w) (call m k kp wv).
Proof.
  intros Hm H. unfold call. specialize (Hm w wv H). destruct (m wv) as [a wv'|wv'|u]; [| |destruct Hm as [Hm|[Hm|Hm]]; [left; exact Hm|right; left; exact Hm|rewrite Hm; cbn; auto]]; destruct Hm as (w' & -> & H'); cbn [res_rel]; eauto.
Qed.
Lemma lsim_exec R (P : prims R) o w wv sl : quiet o = true -> R w wv -> res_rel R (exec o (w, sl)) (exec o (wv, sl)).
Proof.
  intros Hq H. destruct o; try discriminate Hq; cbn [exec];
    repeat match goal with |- res_rel _ (match ?x with _ => _ end) (match ?x with _ => _ end) => destruct x as [] end;
    try (right; right; reflexivity); try (eexists; split; [reflexivity|exact H]);
    try (apply lsim_call; [|exact H]; lsim).
Qed.
