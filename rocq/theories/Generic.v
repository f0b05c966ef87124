(** Generic.v - a proof device: every function of the crate is built from the primitives of the machine, so
    any relation between worlds that the primitives keep is kept by all of them. [E] is a set of worlds in
    which nothing is claimed any more (it is never left again). *)
From Verif Require Export Sim.

Definition gsim {S A} (Q : S -> S -> Prop) (E : S -> Prop) (m : M S A) : Prop :=
  (forall sv, E sv -> match m sv with Ok _ s | Panic s => E s | UB _ => True end) /\
  (forall s sv, Q s sv ->
    match m sv with
    | Ok a sv' => E sv' \/ exists s', m s = Ok a s' /\ Q s' sv'
    | Panic sv' => E sv' \/ exists s', m s = Panic s' /\ Q s' sv'
    | UB u => u = UOob \/ u = UDealloc \/ m s = UB u \/ exists x, E x
    end).
Definition Rs {X} (R : world -> world -> Prop) (p q : world * X) : Prop := R (fst p) (fst q) /\ snd p = snd q.
Definition Es {X} (E : world -> Prop) (p : world * X) : Prop := E (fst p).

Lemma gsim_ret {S A} Q E (a : A) : @gsim S A Q E (ret a).
Proof. split; [auto|]. intros s sv H. cbn. eauto. Qed.
Lemma gsim_panic {S A} Q E : @gsim S A Q E panic.
Proof. split; [auto|]. intros s sv H. cbn. eauto. Qed.
Lemma gsim_undef {S A} Q E u : @gsim S A Q E (undef u).
Proof. split; [intros sv H; exact I|]. intros s sv H. right. right. left. reflexivity. Qed.
Lemma gsim_bind {S A B} Q E (m : M S A) (k : A -> M S B) : gsim Q E m -> (forall a, gsim Q E (k a)) -> gsim Q E (bind m k).
Proof.
  intros [Em Hm] Hk. split.
  - intros sv H. unfold bind. specialize (Em sv H). destruct (m sv) as [a sv'|sv'|u]; [exact (proj1 (Hk a) sv' Em)|exact Em|exact I].
  - intros s sv H. unfold bind. specialize (Hm s sv H). destruct (m sv) as [a sv'|sv'|u].
    + destruct Hm as [He|(s' & -> & H')]; [|exact (proj2 (Hk a) s' sv' H')].
      pose proof (proj1 (Hk a) sv' He) as X. destruct (k a sv'); [left; exact X|left; exact X|right; right; right; eauto].
    + destruct Hm as [He|(s' & -> & H')]; eauto.
    + destruct Hm as [Hm|[Hm|[Hm|Hm]]]; [tauto|tauto| |tauto]. rewrite Hm. auto.
Qed.
Lemma gsim_unwind {S A} Q E (m : M S A) c : gsim Q E m -> gsim Q E c -> gsim Q E (on_unwind m c).
Proof.
  intros [Em Hm] [Ec Hc]. split.
  - intros sv H. unfold on_unwind. specialize (Em sv H). destruct (m sv) as [a sv'|sv'|u]; [exact Em| |exact I].
    specialize (Ec sv' Em). destruct (c sv'); exact Ec || exact I.
  - intros s sv H. unfold on_unwind. specialize (Hm s sv H). destruct (m sv) as [a sv'|sv'|u].
    + destruct Hm as [He|(s' & -> & H')]; eauto.
    + destruct Hm as [He|(s' & -> & H')].
      * specialize (Ec sv' He). destruct (c sv'); [left; exact Ec|left; exact Ec|right; right; right; eauto].
      * specialize (Hc s' sv' H'). destruct (c sv') as [x sv2|sv2|u];
          [destruct Hc as [Hc|(s2 & -> & H2)]; eauto|destruct Hc as [Hc|(s2 & -> & H2)]; eauto|].
        destruct Hc as [Hc|[Hc|[Hc|Hc]]]; [tauto|tauto| |tauto]. rewrite Hc. auto.
    + destruct Hm as [Hm|[Hm|[Hm|Hm]]]; [tauto|tauto| |tauto]. rewrite Hm. auto.
Qed.
Lemma gsim_each {S A} Q E (body : A -> M S unit) l : (forall a, gsim Q E (body a)) -> gsim Q E (for_each body l).
Proof. intros H. induction l as [|x l IH]; cbn [for_each]; [apply gsim_ret|apply gsim_bind; auto]. Qed.
Lemma gsim_mapM {S A B} Q E (body : A -> M S B) l : (forall a, gsim Q E (body a)) -> gsim Q E (mapM body l).
Proof.
  intros H. induction l as [|x l IH]; cbn [mapM]; [apply gsim_ret|]. apply gsim_bind; [auto|]. intros y. apply gsim_bind; [auto|].
  intros ys. apply gsim_ret.
Qed.
Lemma gsim_padd {S} Q (E : S -> Prop) a b : gsim Q E (padd a b).
Proof. unfold padd. destruct (_ <? _); [apply gsim_ret|apply gsim_undef]. Qed.
Lemma gsim_pmul {S} Q (E : S -> Prop) a b : gsim Q E (pmul a b).
Proof. unfold pmul. destruct (_ <? _); [apply gsim_ret|apply gsim_undef]. Qed.
(** The primitives. *)
Record gprims (R : world -> world -> Prop) (E : world -> Prop) : Prop := mkGprims {
  g_emit : forall e, gsim R E (emit e);
  g_ref : forall a n al, gsim R E (check_ref a n al);
  g_load : forall a n al, gsim R E (load a n al);
  g_store : forall a al bs, gsim R E (store a al bs);
  g_copy : forall src dst n al, gsim R E (copy_nonoverlapping src dst n al);
  g_copy_bytes : forall src dst n, gsim R E (copy_bytes src dst n);
  g_fill_zero : forall a n, gsim R E (fill_zero a n);
  g_alloc : forall size align, gsim R E (alloc size align);
  g_bump : forall size align, gsim R E (bump_alloc size align);
  g_dealloc : forall a size align, gsim R E (dealloc a size align);
  g_realloc : forall a size align ns, gsim R E (realloc a size align ns) }.
Create HintDb gsims.
#[export] Hint Resolve gsim_ret gsim_panic gsim_undef gsim_padd gsim_pmul g_emit g_ref g_load g_store g_copy g_copy_bytes g_fill_zero
  g_alloc g_bump g_dealloc g_realloc : gsims.
Ltac gsim :=
  repeat first
    [ assumption
    | solve [eauto 3 with gsims]
    | apply gsim_bind; [|intros ?]
    | apply gsim_unwind
    | apply gsim_each; intros ?
    | apply gsim_mapM; intros ?
    | match goal with
      | |- gsim _ _ (let '(_, _) := ?x in _) => destruct x as [? ?]
      | |- gsim _ _ (match ?x with _ => _ end) => destruct x as [] eqn:?
      | |- gsim _ _ (let _ := _ in _) => cbv zeta
      end ].
Lemma gsim_load_len R E (P : gprims R E) k a : gsim R E (load_len k a).
Proof. unfold load_len. gsim. Qed.
Lemma gsim_load_ctrls R E (P : gprims R E) fs a : gsim R E (load_ctrls fs a).
Proof. unfold load_ctrls. gsim. Qed.
Lemma gsim_len_call R E (P : gprims R E) n : gsim R E (len_call n).
Proof. unfold len_call. gsim. Qed.
#[export] Hint Resolve gsim_load_len gsim_load_ctrls gsim_len_call : gsims.
Lemma gsim_layout2 R E (P : gprims R E) :
  (forall t a, gsim R E (calc_layout t a)) /\ (forall fs cs a size, gsim R E (calc_tail fs cs a size)).
Proof. apply vty_flds_ind; intros; cbn [calc_layout calc_tail]; gsim; auto. all: gsim; auto. all: gsim; auto. Qed.
Lemma gsim_layout R E (P : gprims R E) t a : gsim R E (calc_layout t a).
Proof. now apply gsim_layout2. Qed.
#[export] Hint Resolve gsim_layout : gsims.
Lemma gsim_init_layout2 R E (P : gprims R E) :
  (forall t i, gsim R E (init_layout t i)) /\ (forall fs is_ cs size, gsim R E (init_tail fs is_ cs size)).
Proof. apply vty_flds_ind; intros; cbn [init_layout init_tail]; gsim. Qed.
Lemma gsim_init_layout R E (P : gprims R E) t i : gsim R E (init_layout t i).
Proof. now apply gsim_init_layout2. Qed.
Lemma gsim_drop_leaf R E (P : gprims R E) f a : gsim R E (drop_leaf f a).
Proof. unfold drop_leaf. gsim. Qed.
Lemma gsim_drop_value R E (P : gprims R E) f v : gsim R E (drop_value f v).
Proof. unfold drop_value. gsim. Qed.
#[export] Hint Resolve gsim_init_layout gsim_drop_leaf gsim_drop_value : gsims.
Lemma gsim_drop_array R E (P : gprims R E) f a off n : gsim R E (drop_array f a off n).
Proof. unfold drop_array. gsim. Qed.
#[export] Hint Resolve gsim_drop_array : gsims.
Lemma gsim_vdrop2 R E (P : gprims R E) :
  (forall t a l, gsim R E (vdrop t a l)) /\ (forall fs a es, gsim R E (vdrop_flds fs a es)).
Proof. apply vty_flds_ind; intros; cbn [vdrop vdrop_flds]; gsim. Qed.
Lemma gsim_vdrop R E (P : gprims R E) t a l : gsim R E (vdrop t a l).
Proof. now apply gsim_vdrop2. Qed.
#[export] Hint Resolve gsim_vdrop : gsims.
Lemma gsim_vbox_drop R E (P : gprims R E) t a : gsim R E (vbox_drop t a).
Proof. unfold vbox_drop. gsim. Qed.
Lemma gsim_owned_drop R E (P : gprims R E) t a : gsim R E (owned_drop t a).
Proof. unfold owned_drop. gsim. Qed.
Lemma gsim_drop_ainit R E (P : gprims R E) f ai : gsim R E (drop_ainit f ai).
Proof. unfold drop_ainit. gsim. Qed.
#[export] Hint Resolve gsim_vbox_drop gsim_owned_drop gsim_drop_ainit : gsims.
Lemma gsim_drop_init2 R E (P : gprims R E) :
  (forall t i, gsim R E (drop_init t i)) /\ (forall fs is_, gsim R E (drop_flds fs is_)).
Proof. apply vty_flds_ind; intros; cbn [drop_init drop_flds]; gsim. Qed.
Lemma gsim_drop_init R E (P : gprims R E) t i : gsim R E (drop_init t i).
Proof. now apply gsim_drop_init2. Qed.
Lemma gsim_drop_flds R E (P : gprims R E) fs is_ : gsim R E (drop_flds fs is_).
Proof. now apply gsim_drop_init2. Qed.
#[export] Hint Resolve gsim_drop_init gsim_drop_flds : gsims.
Lemma gsim_drop_flds_rev R E (P : gprims R E) fs : forall is_, gsim R E (drop_flds_rev fs is_).
Proof. induction fs; intros; cbn [drop_flds_rev]; gsim. Qed.
#[export] Hint Resolve gsim_drop_flds_rev : gsims.
Lemma gsim_fill_loop R E (P : gprims R E) f p pre g i : gsim R E (fill_loop f p pre g i).
Proof. unfold fill_loop. gsim. Qed.
#[export] Hint Resolve gsim_fill_loop : gsims.
Lemma gsim_ainit_run R E (P : gprims R E) f ai p n : gsim R E (ainit_run f ai p n).
Proof. unfold ainit_run. gsim. Qed.
#[export] Hint Resolve gsim_ainit_run : gsims.
Lemma gsim_init_array R E (P : gprims R E) f ai a off n : gsim R E (init_array f ai a off n).
Proof. unfold init_array. gsim. Qed.
Lemma gsim_unwind_rec R E (P : gprims R E) kd temps r is_ : gsim R E (unwind_rec kd temps r is_).
Proof. unfold unwind_rec, drop_temps. gsim. Qed.
#[export] Hint Resolve gsim_init_array gsim_unwind_rec : gsims.
Lemma gsim_initialize2 R E (P : gprims R E) :
  (forall t i dst l, gsim R E (initialize t i dst l)) /\ (forall fs kd is_ es dst temps, gsim R E (init_fields kd fs is_ es dst temps)).
Proof. apply vty_flds_ind; intros; cbn [initialize init_fields]; gsim. Qed.
Lemma gsim_initialize R E (P : gprims R E) t i dst l : gsim R E (initialize t i dst l).
Proof. now apply gsim_initialize2. Qed.
Lemma gsim_read_array R E (P : gprims R E) f a off n : gsim R E (read_array f a off n).
Proof. unfold read_array. gsim. Qed.
#[export] Hint Resolve gsim_initialize gsim_read_array : gsims.
Lemma gsim_view2 R E (P : gprims R E) :
  (forall t a, gsim R E (view t a)) /\ (forall fs a es, gsim R E (view_flds fs a es)).
Proof. apply vty_flds_ind; intros; cbn [view view_flds]; gsim. Qed.
Lemma gsim_view R E (P : gprims R E) t a : gsim R E (view t a).
Proof. now apply gsim_view2. Qed.
Lemma gsim_elem_mut R E (P : gprims R E) f a off n i : gsim R E (elem_mut f a off n i).
Proof. unfold elem_mut. gsim. Qed.
#[export] Hint Resolve gsim_view gsim_elem_mut : gsims.
Lemma gsim_locate2 R E (P : gprims R E) :
  (forall t a p, gsim R E (locate t a p)) /\ (forall fs a es j p, gsim R E (locate_fld fs a es j p)).
Proof. apply vty_flds_ind; intros; cbn [locate locate_fld]; gsim. Qed.
Lemma gsim_locate R E (P : gprims R E) t a p : gsim R E (locate t a p).
Proof. now apply gsim_locate2. Qed.
Lemma gsim_ref_slice R E (P : gprims R E) f a off n : gsim R E (ref_slice f a off n).
Proof. unfold ref_slice. gsim. Qed.
#[export] Hint Resolve gsim_locate gsim_ref_slice : gsims.
Lemma gsim_field_slice R E (P : gprims R E) fs : forall a es j, gsim R E (field_slice fs a es j).
Proof. induction fs; intros; cbn [field_slice]; gsim. Qed.
#[export] Hint Resolve gsim_field_slice : gsims.
Lemma gsim_array_slice R E (P : gprims R E) t a j : gsim R E (array_slice t a j).
Proof. unfold array_slice. gsim. Qed.
Lemma gsim_sub_slice R E (P : gprims R E) s lo k : gsim R E (sub_slice s lo k).
Proof. unfold sub_slice. gsim. Qed.
Lemma gsim_assign R E (P : gprims R E) t a p new : gsim R E (assign t a p new).
Proof. unfold assign. gsim. Qed.
Lemma gsim_vclone2 R E (P : gprims R E) :
  (forall t a, gsim R E (vclone t a)) /\ (forall fs a es, gsim R E (vclone_flds fs a es)).
Proof. apply vty_flds_ind; intros; cbn [vclone vclone_flds]; gsim. Qed.
Lemma gsim_vclone R E (P : gprims R E) t a : gsim R E (vclone t a).
Proof. now apply gsim_vclone2. Qed.
Lemma gsim_set_ctrls R E (P : gprims R E) a dp cf : forall news, gsim R E (set_ctrls a dp cf news).
Proof. induction cf; intros; cbn [set_ctrls]; gsim. Qed.
#[export] Hint Resolve gsim_array_slice gsim_sub_slice gsim_assign gsim_vclone gsim_set_ctrls : gsims.
Lemma gsim_try_set R E (P : gprims R E) fs a dp news : gsim R E (try_set_layout_controllers fs a dp news).
Proof. unfold try_set_layout_controllers. gsim. Qed.
Lemma gsim_vbox_new R E (P : gprims R E) t i : gsim R E (vbox_new t i).
Proof. unfold vbox_new. gsim. Qed.
Lemma gsim_owned_new_in R E (P : gprims R E) t i : gsim R E (owned_new_in t i).
Proof. unfold owned_new_in. gsim. Qed.
#[export] Hint Resolve gsim_try_set gsim_vbox_new gsim_owned_new_in : gsims.
(** sequences *)
Lemma gsim_lift {X A} R E (m : M world A) (x : X) (k : M (world * X) A) :
  (forall w y, k (w, y) = match m w with Ok a w' => Ok a (w', y) | Panic w' => Panic (w', y) | UB u => UB u end) ->
  gsim R E m -> gsim (@Rs X R) (@Es X E) k.
Proof.
  intros Hk [Em Hm]. split.
  - intros [wv y] H. rewrite Hk. specialize (Em wv H). destruct (m wv); exact Em || exact I.
  - intros [w y] [wv yv] [H Ey]. cbn [fst snd] in *. subst yv. rewrite !Hk. specialize (Hm w wv H). destruct (m wv) as [a wv'|wv'|u].
    + destruct Hm as [He|(w' & -> & H')]; [left; exact He|]. right. eexists. split; [reflexivity|]. split; [exact H'|reflexivity].
    + destruct Hm as [He|(w' & -> & H')]; [left; exact He|]. right. eexists. split; [reflexivity|]. split; [exact H'|reflexivity].
    + destruct Hm as [Hm|[Hm|[Hm|(x0 & Hm)]]]; [tauto|tauto|rewrite Hm; auto|]. right. right. right. exists (x0, y). exact Hm.
Qed.
Lemma gsim_lft {A} R E (m : M world A) : gsim R E m -> gsim (@Rs sq R) (@Es sq E) (lft m).
Proof. apply (gsim_lift R E m (mkS 0 0 0 0)). intros w y. reflexivity. Qed.
Lemma gsim_lft_t {A} R E (m : M world A) : gsim R E m -> gsim (@Rs tstate R) (@Es tstate E) (lft_t m).
Proof. apply (gsim_lift R E m (mkI 0 0, [])). intros w y. reflexivity. Qed.
Lemma gsim_get R E : gsim (@Rs sq R) (@Es sq E) get_sq.
Proof. split; [intros [w s] H; exact H|]. intros [w s] [wv sv] [H Ey]. cbn [fst snd get_sq] in *. subst sv. right. eexists. split; [reflexivity|]. split; [exact H|reflexivity]. Qed.
Lemma gsim_set R E s' : gsim (@Rs sq R) (@Es sq E) (set_sq s').
Proof. split; [intros [w s] H; exact H|]. intros [w s] [wv sv] [H Ey]. cbn [fst snd set_sq] in *. right. eexists. split; [reflexivity|]. split; [exact H|reflexivity]. Qed.
#[export] Hint Resolve gsim_get gsim_set : gsims.
Ltac gsim ::=
  repeat first
    [ assumption
    | solve [eauto 3 with gsims]
    | apply gsim_bind; [|intros ?]
    | apply gsim_unwind
    | apply gsim_each; intros ?
    | apply gsim_mapM; intros ?
    | apply gsim_lft
    | apply gsim_lft_t
    | match goal with
      | |- gsim _ _ (let '(_, _) := ?x in _) => destruct x as [? ?]
      | |- gsim _ _ (match ?x with _ => _ end) => destruct x as [] eqn:?
      | |- gsim _ _ (let _ := _ in _) => cbv zeta
      end ].
Lemma gsim_bitmask R E (P : gprims R E) size align : gsim R E (add_bitmask_to_layout size align).
Proof. unfold add_bitmask_to_layout, add_bitmask_lim. gsim. Qed.
#[export] Hint Resolve gsim_bitmask : gsims.
Lemma gsim_alloc_storage R E (P : gprims R E) chk size align : gsim R E (alloc_storage chk size align).
Proof. unfold alloc_storage. gsim. Qed.
Lemma gsim_grow_storage R E (P : gprims R E) chk ptr os align ns : gsim R E (grow_storage chk ptr os align ns).
Proof. unfold grow_storage. gsim. Qed.
Lemma gsim_mark R E (P : gprims R E) chk ptr cap o align : gsim R E (mark_offset_valid chk ptr cap o align).
Proof. unfold mark_offset_valid. gsim. Qed.
Lemma gsim_clear R E (P : gprims R E) chk ptr cap occ align : gsim R E (clear_bitmasks chk ptr cap occ align).
Proof. unfold clear_bitmasks. gsim. Qed.
Lemma gsim_extended R E (P : gprims R E) chk size align : gsim R E (extended_size chk size align).
Proof. unfold extended_size. gsim. Qed.
#[export] Hint Resolve gsim_alloc_storage gsim_grow_storage gsim_mark gsim_clear gsim_extended : gsims.
Lemma gsim_try_realloc R E (P : gprims R E) chk ptr cap mn align : gsim R E (try_realloc chk ptr cap mn align).
Proof. unfold try_realloc. gsim. Qed.
#[export] Hint Resolve gsim_try_realloc : gsims.
Lemma gsim_must_realloc R E (P : gprims R E) chk ptr cap mn align : gsim R E (must_realloc chk ptr cap mn align).
Proof. unfold must_realloc. gsim. Qed.
#[export] Hint Resolve gsim_must_realloc : gsims.
Lemma gsim_push R E (P : gprims R E) t chk i : gsim (@Rs sq R) (@Es sq E) (seq_push t chk i).
Proof. unfold seq_push. gsim. Qed.
Lemma gsim_next R E (P : gprims R E) t it : gsim R E (iter_next t it).
Proof. unfold iter_next. gsim. Qed.
#[export] Hint Resolve gsim_push gsim_next : gsims.
Lemma gsim_collect R E (P : gprims R E) t fuel : forall it, gsim R E (iter_collect t fuel it).
Proof. induction fuel; intros; cbn [iter_collect]; gsim. Qed.
#[export] Hint Resolve gsim_collect : gsims.
Lemma gsim_contents R E (P : gprims R E) t s : gsim R E (seq_contents t s).
Proof. unfold seq_contents. gsim. Qed.
Lemma gsim_offset_of R E (P : gprims R E) t s e : gsim R E (offset_of t s e).
Proof. unfold offset_of. gsim. Qed.
Lemma gsim_from_unchecked R E (P : gprims R E) t s o : gsim R E (from_offset_unchecked t s o).
Proof. unfold from_offset_unchecked. gsim. Qed.
Lemma gsim_offset_valid R E (P : gprims R E) t s o : gsim R E (is_offset_valid t s o).
Proof. unfold is_offset_valid. gsim. Qed.
#[export] Hint Resolve gsim_contents gsim_offset_of gsim_from_unchecked gsim_offset_valid : gsims.
Lemma gsim_from_offset R E (P : gprims R E) t s o : gsim R E (from_offset t s o).
Proof. unfold from_offset. gsim. Qed.
Lemma gsim_take R E (P : gprims R E) t chk : gsim (@Rs sq R) (@Es sq E) (take_elems t chk).
Proof. unfold take_elems. gsim. Qed.
Lemma gsim_drop_loop R E (P : gprims R E) t n : forall it, gsim R E (drop_elems_loop t n it).
Proof. induction n; intros; cbn [drop_elems_loop]; gsim. Qed.
#[export] Hint Resolve gsim_from_offset gsim_take gsim_drop_loop : gsims.
Lemma gsim_elems_drop R E (P : gprims R E) t it : gsim R E (owned_elems_drop t it).
Proof. unfold owned_elems_drop. gsim. Qed.
#[export] Hint Resolve gsim_elems_drop : gsims.
Lemma gsim_seq_drop R E (P : gprims R E) t chk : gsim (@Rs sq R) (@Es sq E) (seq_drop t chk).
Proof. unfold seq_drop. gsim. Qed.
#[export] Hint Resolve gsim_seq_drop : gsims.
(** programs *)
Lemma gsim_subobject2 R E (P : gprims R E) :
  (forall t a p, gsim R E (subobject t a p)) /\ (forall fs a es j p, gsim R E (subobject_fld fs a es j p)).
Proof. apply vty_flds_ind; intros; cbn [subobject subobject_fld]; gsim. Qed.
Lemma gsim_subobject R E (P : gprims R E) t a p : gsim R E (subobject t a p).
Proof. now apply gsim_subobject2. Qed.
#[export] Hint Resolve gsim_subobject : gsims.
Lemma gsim_resolve R E (P : gprims R E) sl pl : gsim R E (resolve sl pl).
Proof. unfold resolve. gsim. Qed.
#[export] Hint Resolve gsim_resolve : gsims.
Lemma gsim_slice_init R E (P : gprims R E) sl cl pl j lo k : gsim R E (slice_init sl cl pl j lo k).
Proof. unfold slice_init. gsim. Qed.
#[export] Hint Resolve gsim_slice_init : gsims.
Lemma gsim_eval R E (P : gprims R E) sl : forall p, gsim R E (eval sl p).
Proof.
  fix IH 1. intros [v|v|n ai|ai|n cl pl j lo k|cl pl j lo k|h|pl|pl|p|ps]; cbn [eval]; gsim.
  induction ps as [|p ps IHps]; [apply gsim_ret|]. apply gsim_bind; [apply IH|]. intros i. apply gsim_bind; [exact IHps|]. intros; apply gsim_ret.
Qed.
#[export] Hint Resolve gsim_eval : gsims.
Lemma gsim_take_cmd R E (P : gprims R E) t c : gsim (@Rs tstate R) (@Es tstate E) (take_cmd t c).
Proof.
  assert (Hh : forall j, gsim (@Rs tstate R) (@Es tstate E) (held_at j)).
  { intros j. split.
    - intros [wv s] H. cbn [held_at]. destruct (nth_error (snd s) j) as [[a|]|]; [exact H|exact I|exact I].
    - intros [w s] [wv sv] [H Ey]. cbn [fst snd held_at] in *. subst sv. destruct (nth_error (snd s) j) as [[a|]|]; [|auto|auto].
      right. eexists. split; [reflexivity|]. split; [exact H|reflexivity]. }
  assert (Hl : forall j, gsim (@Rs tstate R) (@Es tstate E) (let_go j)).
  { intros j. split; [intros [wv [it l]] H; exact H|]. intros [w [it l]] [wv [itv lv]] [H Ey]. cbn [fst snd let_go] in *. injection Ey as <- <-.
    right. eexists. split; [reflexivity|]. split; [exact H|reflexivity]. }
  destruct c; cbn [take_cmd]; gsim.
  - pose proof (fun it => gsim_next R E P t it) as Hnx. split.
    + intros [wv [it l]] H. cbn [fst snd]. pose proof (proj1 (Hnx it) wv H) as X. destruct (iter_next t it wv) as [[[a|] it'] wv'|wv'|u]; exact X || exact I.
    + intros [w [it l]] [wv [itv lv]] [H Ey]. cbn [fst snd] in *. injection Ey as <- <-. pose proof (proj2 (Hnx it) w wv H) as Hn.
      destruct (iter_next t it wv) as [[[a|] it'] wv'|wv'|u];
        [| | |destruct Hn as [Hn|[Hn|[Hn|(x0 & Hn)]]]; [tauto|tauto|rewrite Hn; auto|right; right; right; exists (x0, (it, l)); exact Hn]];
        (destruct Hn as [Hn|(w' & -> & H')]; [left; exact Hn|]); right; eexists; (split; [reflexivity|]); (split; [exact H'|reflexivity]).
  - split; [intros [wv [it l]] H; exact H|]. intros [w [it l]] [wv [itv lv]] [H Ey]. cbn [fst snd] in *. injection Ey as <- <-.
    right. eexists; (split; [reflexivity|]); (split; [exact H|reflexivity]).
Qed.
#[export] Hint Resolve gsim_take_cmd : gsims.
Lemma gsim_take_end R E (P : gprims R E) t keep s : gsim R E (take_end t keep s).
Proof. unfold take_end. gsim. Qed.
#[export] Hint Resolve gsim_take_end : gsims.
Lemma gsim_take_run R E (P : gprims R E) t it cmds keep : gsim R E (take_run t it cmds keep).
Proof.
  assert (Hm : gsim (@Rs tstate R) (@Es tstate E) (mapM (take_cmd t) cmds)) by gsim.
  assert (H1 : forall s outs, gsim R E (take_end t keep s ;;; ret outs : M world (list out))) by (intros; gsim).
  assert (H2 : forall s, gsim R E (take_end t false s ;;; (@panic world (list out)))) by (intros; gsim).
  split.
  - intros wv H. unfold take_run. pose proof (proj1 Hm (wv, (it, [])) H) as X.
    destruct (mapM (take_cmd t) cmds (wv, (it, []))) as [outs [wv' s]|[wv' s]|u]; [exact (proj1 (H1 s outs) wv' X)|exact (proj1 (H2 s) wv' X)|exact I].
  - intros w wv H. unfold take_run. pose proof (proj2 Hm (w, (it, [])) (wv, (it, [])) (conj H eq_refl)) as X.
    destruct (mapM (take_cmd t) cmds (wv, (it, []))) as [outs [wv' s]|[wv' s]|u].
    + destruct X as [X|([w' s'] & -> & H' & Ey)]; cbn [fst snd] in *.
      * pose proof (proj1 (H1 s outs) wv' X) as Y.
        destruct ((take_end t keep s ;;; ret outs) wv'); [left; exact Y|left; exact Y|right; right; right; eauto].
      * subst s'. exact (proj2 (H1 s outs) w' wv' H').
    + destruct X as [X|([w' s'] & -> & H' & Ey)]; cbn [fst snd] in *.
      * pose proof (proj1 (H2 s) wv' X) as Y. destruct ((take_end t false s ;;; (@panic world (list out))) wv') eqn:Et; [left; exact Y|left; exact Y|right; right; right; eauto].
      * subst s'. exact (proj2 (H2 s) w' wv' H').
    + destruct X as [X|[X|[X|(x0 & X)]]]; [tauto|tauto|rewrite X; auto|]. right. right. right. exists (fst x0). exact X.
Qed.
Lemma gsim_mem_swap R E (P : gprims R E) a b n al : gsim R E (mem_swap a b n al).
Proof. unfold mem_swap. gsim. Qed.
#[export] Hint Resolve gsim_take_run gsim_mem_swap : gsims.
Lemma gsim_swap_leaves R E (P : gprims R E) t a q t' a' q' : gsim R E (swap_leaves t a q t' a' q').
Proof. unfold swap_leaves. gsim. Qed.
#[export] Hint Resolve gsim_swap_leaves : gsims.
Definition res_gsim {X A} (R : world -> world -> Prop) (E : world -> Prop) (r rv : res (world * X) A) : Prop :=
  match rv with
  | Ok a (wv, x) => E wv \/ exists w, r = Ok a (w, x) /\ R w wv
  | Panic (wv, x) => E wv \/ exists w, r = Panic (w, x) /\ R w wv
  | UB u => u = UOob \/ u = UDealloc \/ r = UB u \/ exists x, E x
  end.
Lemma gsim_call {A} R E (m : M world A) k kp w wv : gsim R E m -> R w wv -> res_gsim R E (call m k kp w) (call m k kp wv).
Proof.
  intros [_ Hm] H. unfold call. specialize (Hm w wv H). destruct (m wv) as [a wv'|wv'|u]; cbn [res_gsim].
  - destruct Hm as [Hm|(w' & -> & H')]; eauto.
  - destruct Hm as [Hm|(w' & -> & H')]; eauto.
  - destruct Hm as [Hm|[Hm|[Hm|Hm]]]; [tauto|tauto|rewrite Hm; auto|auto].
Qed.
Lemma gsim_call_seq {A} R E (m : SM A) s k kp w wv : gsim (@Rs sq R) (@Es sq E) m -> R w wv -> res_gsim R E (call_seq m s k kp w) (call_seq m s k kp wv).
Proof.
  intros [_ Hm] H. unfold call_seq. specialize (Hm (w, s) (wv, s) (conj H eq_refl)).
  destruct (m (wv, s)) as [a [wv' s1]|[wv' s1]|u]; cbn [res_gsim].
  - destruct Hm as [Hm|([w' s'] & -> & H' & Ey)]; [left; exact Hm|]. cbn [fst snd] in *. subst s1. eauto.
  - destruct Hm as [Hm|([w' s'] & -> & H' & Ey)]; [left; exact Hm|]. cbn [fst snd] in *. subst s1. eauto.
  - destruct Hm as [Hm|[Hm|[Hm|(x & Hm)]]]; [tauto|tauto|rewrite Hm; auto|]. right. right. right. exists (fst x). exact Hm.
Qed.
(** Operations of programs. *)
Lemma gsim_exec R E (P : gprims R E) o w wv sl : R w wv -> res_gsim R E (exec o (w, sl)) (exec o (wv, sl)).
Proof.
  intros H. destruct o; cbn [exec];
    repeat match goal with |- res_gsim _ _ (match ?x with _ => _ end) (match ?x with _ => _ end) => destruct x as [] end;
    try (right; right; left; reflexivity); try (right; eexists; split; [reflexivity|exact H]);
    try (apply gsim_call; [|exact H]; gsim); try (apply gsim_call_seq; [|exact H]; gsim).
Qed.
Lemma gsim_call_E {A} R E (m : M world A) k kp wv : gsim R E m -> E wv ->
  match call m k kp wv with Ok _ c | Panic c => E (fst c) | UB _ => True end.
Proof. intros [Hm _] H. unfold call. specialize (Hm wv H). destruct (m wv); exact Hm || exact I. Qed.
Lemma gsim_call_seq_E {A} R E (m : SM A) s k kp wv : gsim (@Rs sq R) (@Es sq E) m -> E wv ->
  match call_seq m s k kp wv with Ok _ c | Panic c => E (fst c) | UB _ => True end.
Proof. intros [Hm _] H. unfold call_seq. specialize (Hm (wv, s) H). destruct (m (wv, s)) as [a [w' s']|[w' s']|u]; exact Hm || exact I. Qed.
(** A set of worlds that the primitives do not leave is not left by any operation. *)
Lemma exec_keeps R E (P : gprims R E) o wv sl : E wv -> match exec o (wv, sl) with Ok _ c | Panic c => E (fst c) | UB _ => True end.
Proof.
  intros H. destruct o; cbn [exec];
    repeat match goal with |- match (match ?x with _ => _ end) with _ => _ end => destruct x as [] end;
    try exact I; try exact H;
    try (apply (gsim_call_E R); [|exact H]; gsim); try (apply (gsim_call_seq_E R); [|exact H]; gsim).
Qed.
