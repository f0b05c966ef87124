(** Trace.v - every function of the crate calls the allocator correctly (C60). *)
From Verif Require Export TraceSpec Sim SessModel StrModel DropPanic.

Definition heap_of (bl : list block) : list allocation := map (fun b => (b_base b, b_size b, b_align b)) (filter b_heap bl).
Definition tracked (z w : world) : Prop :=
  wf_blocks (w_blocks w) /\ exists es, w_log w = w_log z ++ es /\ heap_calls (heap z) es (heap w).
Definition tracked2 {X} (z : world) (p : world * X) : Prop := tracked z (fst p).
Definition keeps {S A} (P : S -> Prop) (m : M S A) : Prop :=
  forall s, P s -> match m s with Ok _ s' | Panic s' => P s' | UB _ => True end.

Lemma calls_app : forall L es L1 es' L2, heap_calls L es L1 -> heap_calls L1 es' L2 -> heap_calls L (es ++ es') L2.
Proof. intros L es L1 es' Lz H. revert es' Lz. induction H; intros es0 Lz Hz; cbn [app]; try (constructor; auto; fail); auto. Qed.
Lemma ord_pairs_tail {A} (R : A -> A -> Prop) l1 l2 : ForallOrdPairs R (l1 ++ l2) -> ForallOrdPairs R l2.
Proof. induction l1 as [|x l1 IH]; intros H; [exact H|]. inversion H; subst. auto. Qed.
Lemma tracked_more z w w' es : tracked z w -> wf_blocks (w_blocks w') -> w_log w' = w_log w ++ es -> heap_calls (heap w) es (heap w') -> tracked z w'.
Proof.
  intros (_ & e0 & E0 & H0) Hwf El H. split; [exact Hwf|]. exists (e0 ++ es). split; [rewrite El, E0, app_assoc; reflexivity|]. eapply calls_app; eauto.
Qed.
Lemma tracked_same z w w' : tracked z w -> w_blocks w' = w_blocks w -> w_log w' = w_log w -> tracked z w'.
Proof. intros (H1 & es & E & H) Hb Hl. split; [now rewrite Hb|]. exists es. split; [now rewrite Hl|]. unfold heap in *. now rewrite Hb. Qed.

Lemma keeps_ret {S A} (P : S -> Prop) (a : A) : keeps P (ret a).
Proof. intros s H. exact H. Qed.
Lemma keeps_panic {S A} (P : S -> Prop) : @keeps S A P panic.
Proof. intros s H. exact H. Qed.
Lemma keeps_undef {S A} (P : S -> Prop) u : @keeps S A P (undef u).
Proof. intros s H. exact I. Qed.
Lemma keeps_bind {S A B} (P : S -> Prop) (m : M S A) (k : A -> M S B) : keeps P m -> (forall a, keeps P (k a)) -> keeps P (bind m k).
Proof. intros Hm Hk s H. unfold bind. specialize (Hm s H). destruct (m s) as [a s'|s'|u]; [exact (Hk a s' Hm)|exact Hm|exact I]. Qed.
Lemma keeps_bind_val {S A B} (P : S -> Prop) (m : M S A) (k : A -> M S B) : keeps P m -> (forall a s s', m s = Ok a s' -> keeps P (k a)) -> keeps P (bind m k).
Proof. intros Hm Hk s H. unfold bind. specialize (Hm s H). destruct (m s) as [a s'|s'|u] eqn:E; [exact (Hk a s s' E s' Hm)|exact Hm|exact I]. Qed.
Lemma keeps_unwind {S A} (P : S -> Prop) (m : M S A) c : keeps P m -> keeps P c -> keeps P (on_unwind m c).
Proof.
  intros Hm Hc s H. unfold on_unwind. specialize (Hm s H). destruct (m s) as [a s'|s'|u]; [exact Hm| |exact I].
  specialize (Hc s' Hm). destruct (c s'); [exact Hc|exact Hc|exact I].
Qed.
Lemma keeps_each {S A} (P : S -> Prop) (body : A -> M S unit) l : (forall a, keeps P (body a)) -> keeps P (for_each body l).
Proof. intros H. induction l as [|x l IH]; cbn [for_each]; [apply keeps_ret|apply keeps_bind; auto]. Qed.
Lemma keeps_mapM {S A B} (P : S -> Prop) (body : A -> M S B) l : (forall a, keeps P (body a)) -> keeps P (mapM body l).
Proof.
  intros H. induction l as [|x l IH]; cbn [mapM]; [apply keeps_ret|]. apply keeps_bind; [auto|]. intros y. apply keeps_bind; [auto|].
  intros ys. apply keeps_ret.
Qed.
Create HintDb keepsdb.
#[export] Hint Resolve keeps_ret keeps_panic keeps_undef : keepsdb.

Lemma keeps_ref z a n al : keeps (tracked z) (check_ref a n al).
Proof. intros w H. unfold check_ref. destruct (a =? 0); [exact I|]. destruct (negb _); [exact I|]. destruct (negb _); [exact I|exact H]. Qed.
Lemma keeps_mem z (g : (N -> cell) -> (N -> cell)) : keeps (tracked z) (fun w => Ok tt (set_mem w (g (w_mem w)))).
Proof. intros w H. eapply tracked_same; eauto. Qed.
Lemma keeps_emit_drop z v : keeps (tracked z) (emit (EDrop v)).
Proof. intros w H. eapply (tracked_more z w _ [EDrop v]); [exact H|apply H|reflexivity|]. repeat constructor. Qed.
Lemma keeps_emit_clone z v : keeps (tracked z) (emit (EClone v)).
Proof. intros w H. eapply (tracked_more z w _ [EClone v]); [exact H|apply H|reflexivity|]. repeat constructor. Qed.
Lemma keeps_emit_call z i : keeps (tracked z) (emit (ECall i)).
Proof. intros w H. eapply (tracked_more z w _ [ECall i]); [exact H|apply H|reflexivity|]. repeat constructor. Qed.
Lemma keeps_emit_next z : keeps (tracked z) (emit ENext).
Proof. intros w H. eapply (tracked_more z w _ [ENext]); [exact H|apply H|reflexivity|]. repeat constructor. Qed.
#[export] Hint Resolve keeps_ref keeps_mem keeps_emit_drop keeps_emit_clone keeps_emit_call keeps_emit_next : keepsdb.
Lemma keeps_load z a n al : keeps (tracked z) (load a n al).
Proof. apply keeps_bind; [auto with keepsdb|]. intros _ w H. exact H. Qed.
Lemma keeps_store z a al bs : keeps (tracked z) (store a al bs).
Proof. apply keeps_bind; auto with keepsdb. intros _. apply (keeps_mem z (fun m => wr m a bs)). Qed.
Lemma keeps_copy z src dst n al : keeps (tracked z) (copy_nonoverlapping src dst n al).
Proof.
  apply keeps_bind; auto with keepsdb. intros _. apply keeps_bind; auto with keepsdb. intros _ w H.
  destruct ((n =? 0) || (src + n <=? dst) || (dst + n <=? src)); [|exact I]. apply (keeps_mem z (fun m => move m src dst n) w H).
Qed.
Lemma keeps_copy_bytes z src dst n : keeps (tracked z) (copy_bytes src dst n).
Proof. apply keeps_bind; auto with keepsdb. intros _. apply keeps_bind; auto with keepsdb. intros _. apply (keeps_mem z (fun m => move m src dst n)). Qed.
Lemma keeps_fill_zero z a n : keeps (tracked z) (fill_zero a n).
Proof. apply keeps_bind; auto with keepsdb. intros _. apply (keeps_mem z (fun m => fill m a n (By 0))). Qed.
Lemma keeps_padd {S} (P : S -> Prop) a b : keeps P (padd a b).
Proof. unfold padd. destruct (_ <? _); auto with keepsdb. Qed.
Lemma keeps_pmul {S} (P : S -> Prop) a b : keeps P (pmul a b).
Proof. unfold pmul. destruct (_ <? _); auto with keepsdb. Qed.

(** ** the allocator *)
Lemma heap_in bl a s al : In (a, s, al) (heap_of bl) <-> exists b, In b bl /\ b_heap b = true /\ b = mkB a s al true.
Proof.
  unfold heap_of. rewrite in_map_iff. split.
  - intros ([b1 b2 b3 b4] & E & Hb). apply filter_In in Hb. destruct Hb as [Hb Hh]. cbn in *. subst b4. injection E as -> -> ->. eauto.
  - intros (b & Hb & Hh & ->). exists (mkB a s al true). split; [reflexivity|]. apply filter_In. auto.
Qed.
Lemma size_align_request size align : from_size_align size align = true -> 0 < size -> request_ok size align.
Proof.
  unfold from_size_align, from_size_align_lim. intros H Hs. apply andb_prop in H as [H1 H2]. apply N.eqb_eq in H1. apply N.leb_le in H2.
  split; [exact Hs|]. split; [eauto|exact H2].
Qed.
Lemma valid_answer_ok bl a size align : valid_answer bl a size align = true -> answer_ok (heap_of bl) a size align.
Proof.
  unfold valid_answer. intros H. apply andb_prop in H as [H H4]. apply andb_prop in H as [H H3]. apply andb_prop in H as [H1 H2].
  apply negb_true_iff, N.eqb_neq in H1. apply N.eqb_eq in H2. apply N.ltb_lt in H3. rewrite forallb_forall in H4.
  split; [lia|]. split; [exact H2|]. split; [exact H3|]. intros b s al Hin. apply heap_in in Hin. destruct Hin as (c & Hc & _ & ->).
  specialize (H4 _ Hc). unfold disjoint_from in H4. cbn [b_base b_size] in H4. apply orb_true_iff in H4. rewrite !N.leb_le in H4. exact H4.
Qed.
(** Removing the block at [a] removes one allocation: the one with that address. *)
Lemma heap_del bl a size align : wf_blocks bl -> is_block bl a size align = true ->
  exists L1 L2, heap_of bl = L1 ++ (a, size, align) :: L2 /\ heap_of (del_block bl a) = L1 ++ L2.
Proof.
  intros Hwf H. unfold is_block in H. apply existsb_exists in H. destruct H as ([b s al h] & Hb & E).
  unfold block_eqb in E. repeat (apply andb_prop in E as [E ?]). cbn [b_base b_size b_align b_heap] in *.
  repeat match goal with X : (_ =? _) = true |- _ => apply N.eqb_eq in X end. subst.
  apply in_split in Hb. destruct Hb as (l1 & l2 & ->).
  assert (Hne : forall c, In c (l1 ++ l2) -> b_base c <> a).
  { intros c Hc Ec. destruct Hwf as [H1 H2].
    assert (Hap : blocks_apart c (mkB a size align true) \/ blocks_apart (mkB a size align true) c).
    { apply in_app_or in Hc. destruct Hc as [Hc|Hc].
      - left. apply in_split in Hc. destruct Hc as (m1 & m2 & ->). rewrite <- app_assoc in H2. cbn [app] in H2. apply ord_pairs_tail in H2. inversion H2 as [|? ? Hall _]; subst.
        rewrite Forall_forall in Hall. apply Hall. apply in_or_app. right. left. reflexivity.
      - right. apply ord_pairs_tail in H2. inversion H2 as [|? ? Hall _]; subst. rewrite Forall_forall in Hall. apply Hall, Hc. }
    assert (Hp : forall d, In d [c; mkB a size align true] -> 0 < b_size d).
    { intros d [<-|[<-|[]]]; apply H1; [apply in_app_or in Hc; apply in_or_app; cbn [In]; tauto|apply in_or_app; right; left; reflexivity]. }
    pose proof (Hp c (or_introl eq_refl)). pose proof (Hp _ (or_intror (or_introl eq_refl))) as Hpa. unfold blocks_apart in Hap. cbn [b_base b_size] in *. lia. }
  assert (Hdel : forall l, (forall c, In c l -> b_base c <> a) -> del_block l a = l).
  { induction l as [|c l IH]; intros Hl; [reflexivity|]. unfold del_block. cbn [filter]. destruct (N.eqb_spec (b_base c) a) as [E2|_]; [destruct (Hl c (or_introl eq_refl) E2)|]. cbn [negb]. f_equal. apply IH. intros d Hd. apply Hl. right. exact Hd. }
  exists (heap_of l1), (heap_of l2). unfold heap_of. split.
  - rewrite filter_app, map_app. reflexivity.
  - replace (del_block (l1 ++ mkB a size align true :: l2) a) with (l1 ++ l2); [rewrite filter_app, map_app; reflexivity|].
    unfold del_block. rewrite filter_app. cbn [filter b_base]. rewrite N.eqb_refl. cbn [negb]. fold (del_block l1 a). fold (del_block l2 a).
    rewrite !Hdel; [reflexivity| |]; intros c Hc; apply Hne, in_or_app; auto.
Qed.
Lemma keeps_alloc z size align : from_size_align size align = true -> keeps (tracked z) (alloc size align).
Proof.
  intros Hr w H. unfold alloc. destruct (N.eqb_spec size 0) as [|Hs]; [exact I|].
  destruct (w_alloc w (w_tick w) size align) as [a|]; [|eapply tracked_same; eauto]. destruct (valid_answer (w_blocks w) a size align) eqn:Ev; [|eapply tracked_same; eauto].
  eapply (tracked_more z w _ [EAlloc a size align]); [exact H|apply wf_blocks_cons; [apply H|exact Ev|lia]|reflexivity|].
  apply HC_alloc; [apply size_align_request; [exact Hr|lia]|exact (valid_answer_ok _ _ _ _ Ev)|apply HC_none].
Qed.
Lemma keeps_bump z size align : keeps (tracked z) (bump_alloc size align).
Proof.
  intros w H. unfold bump_alloc. destruct (w_alloc w (w_tick w) size align) as [a|]; [|eapply tracked_same; eauto].
  destruct (valid_answer (w_blocks w) a size align) eqn:Ev; [|eapply tracked_same; eauto]. destruct (N.eqb_spec size 0) as [|Hs]; [eapply tracked_same; eauto|].
  eapply (tracked_more z w _ []); [exact H|apply wf_blocks_cons; [apply H|exact Ev|lia]|cbn [w_log]; now rewrite app_nil_r|apply HC_none].
Qed.
Lemma keeps_dealloc z a size align : keeps (tracked z) (dealloc a size align).
Proof.
  intros w H. unfold dealloc. destruct (is_block (w_blocks w) a size align) eqn:E; [|exact I].
  destruct (heap_del _ _ _ _ (proj1 H) E) as (L1 & L2 & E1 & E2).
  eapply (tracked_more z w _ [EDealloc a size align]); [exact H|apply wf_del, H|reflexivity|].
  unfold heap. cbn [add_log set_blocks w_blocks]. fold (heap_of (w_blocks w)). fold (heap_of (del_block (w_blocks w) a)). rewrite E1, E2. apply HC_dealloc, HC_none.
Qed.
Lemma keeps_realloc z a size align ns : from_size_align ns align = true -> keeps (tracked z) (realloc a size align ns).
Proof.
  intros Hr w H. unfold realloc. destruct (N.eqb_spec ns 0) as [|Hs]; [exact I|]. destruct (is_block (w_blocks w) a size align) eqn:E; [|exact I]. cbn [negb].
  destruct (w_alloc w (w_tick w) ns align) as [a'|]; [|eapply tracked_same; eauto]. destruct (valid_answer (del_block (w_blocks w) a) a' ns align) eqn:Ev; [|eapply tracked_same; eauto].
  destruct (heap_del _ _ _ _ (proj1 H) E) as (L1 & L2 & E1 & E2).
  eapply (tracked_more z w _ [ERealloc a size align a' ns]); [exact H|apply wf_blocks_cons; [apply wf_del, H|exact Ev|lia]|reflexivity|].
  unfold heap. cbn [w_blocks filter b_heap map b_base b_size b_align]. fold (heap_of (w_blocks w)). fold (heap_of (del_block (w_blocks w) a)). rewrite E1, E2.
  apply HC_realloc; [apply size_align_request; [exact Hr|lia]|pose proof (valid_answer_ok _ _ _ _ Ev) as Ha; rewrite E2 in Ha; exact Ha|apply HC_none].
Qed.
#[export] Hint Resolve keeps_load keeps_store keeps_copy keeps_copy_bytes keeps_fill_zero keeps_padd keeps_pmul keeps_alloc keeps_bump keeps_dealloc keeps_realloc : keepsdb.

(** ** the code of the crate *)
Ltac keeps :=
  repeat first
    [ assumption
    | solve [eauto 2 with keepsdb]
    | apply keeps_bind; [|intros ?]
    | apply keeps_unwind
    | apply keeps_each; intros ?
    | apply keeps_mapM; intros ?
    | match goal with
      | |- keeps _ (let '(_, _) := ?x in _) => destruct x as [? ?]
      | |- keeps _ (match ?x with _ => _ end) => destruct x as [] eqn:?
      | |- keeps _ (let _ := _ in _) => cbv zeta
      end ].
Lemma keeps_load_len z k a : keeps (tracked z) (load_len k a).
Proof. unfold load_len. keeps. Qed.
Lemma keeps_load_ctrls z fs a : keeps (tracked z) (load_ctrls fs a).
Proof. unfold load_ctrls. keeps. Qed.
Lemma keeps_len_call z n : keeps (tracked z) (len_call n).
Proof. unfold len_call. keeps. Qed.
#[export] Hint Resolve keeps_load_len keeps_load_ctrls keeps_len_call : keepsdb.
Lemma keeps_layout2 z :
  (forall t a, keeps (tracked z) (calc_layout t a)) /\ (forall fs cs a size, keeps (tracked z) (calc_tail fs cs a size)).
Proof. apply vty_flds_ind; intros; cbn [calc_layout calc_tail]; keeps; auto. all: keeps; auto. all: keeps; auto. Qed.
Lemma keeps_layout z t a : keeps (tracked z) (calc_layout t a).
Proof. apply keeps_layout2. Qed.
#[export] Hint Resolve keeps_layout : keepsdb.
Lemma keeps_init_layout2 z :
  (forall t i, keeps (tracked z) (init_layout t i)) /\ (forall fs is_ cs size, keeps (tracked z) (init_tail fs is_ cs size)).
Proof. apply vty_flds_ind; intros; cbn [init_layout init_tail]; keeps. Qed.
Lemma keeps_init_layout z t i : keeps (tracked z) (init_layout t i).
Proof. apply keeps_init_layout2. Qed.
Lemma keeps_drop_leaf z f a : keeps (tracked z) (drop_leaf f a).
Proof. unfold drop_leaf. keeps. Qed.
Lemma keeps_drop_value z f v : keeps (tracked z) (drop_value f v).
Proof. unfold drop_value. keeps. Qed.
#[export] Hint Resolve keeps_init_layout keeps_drop_leaf keeps_drop_value : keepsdb.
Lemma keeps_drop_array z f a off n : keeps (tracked z) (drop_array f a off n).
Proof. unfold drop_array. keeps. Qed.
#[export] Hint Resolve keeps_drop_array : keepsdb.
Lemma keeps_vdrop2 z :
  (forall t a l, keeps (tracked z) (vdrop t a l)) /\ (forall fs a es, keeps (tracked z) (vdrop_flds fs a es)).
Proof. apply vty_flds_ind; intros; cbn [vdrop vdrop_flds]; keeps. Qed.
Lemma keeps_vdrop z t a l : keeps (tracked z) (vdrop t a l).
Proof. apply keeps_vdrop2. Qed.
#[export] Hint Resolve keeps_vdrop : keepsdb.
Lemma keeps_vbox_drop z t a : keeps (tracked z) (vbox_drop t a).
Proof. unfold vbox_drop. keeps. Qed.
Lemma keeps_owned_drop z t a : keeps (tracked z) (owned_drop t a).
Proof. unfold owned_drop. keeps. Qed.
Lemma keeps_drop_ainit z f ai : keeps (tracked z) (drop_ainit f ai).
Proof. unfold drop_ainit. keeps. Qed.
#[export] Hint Resolve keeps_vbox_drop keeps_owned_drop keeps_drop_ainit : keepsdb.
Lemma keeps_drop_init2 z :
  (forall t i, keeps (tracked z) (drop_init t i)) /\ (forall fs is_, keeps (tracked z) (drop_flds fs is_)).
Proof. apply vty_flds_ind; intros; cbn [drop_init drop_flds]; keeps. Qed.
Lemma keeps_drop_init z t i : keeps (tracked z) (drop_init t i).
Proof. apply keeps_drop_init2. Qed.
Lemma keeps_drop_flds z fs is_ : keeps (tracked z) (drop_flds fs is_).
Proof. apply keeps_drop_init2. Qed.
#[export] Hint Resolve keeps_drop_init keeps_drop_flds : keepsdb.
Lemma keeps_drop_flds_rev z fs : forall is_, keeps (tracked z) (drop_flds_rev fs is_).
Proof. induction fs; intros; cbn [drop_flds_rev]; keeps. Qed.
#[export] Hint Resolve keeps_drop_flds_rev : keepsdb.
Lemma keeps_ainit_run z f ai p n : keeps (tracked z) (ainit_run f ai p n).
Proof. unfold ainit_run, fill_loop, for_each at 2. destruct ai; keeps. Qed.
#[export] Hint Resolve keeps_ainit_run : keepsdb.
Lemma keeps_init_array z f ai a off n : keeps (tracked z) (init_array f ai a off n).
Proof. unfold init_array. keeps. Qed.
Lemma keeps_unwind_rec z kd temps r is_ : keeps (tracked z) (unwind_rec kd temps r is_).
Proof. unfold unwind_rec, drop_temps. keeps. Qed.
#[export] Hint Resolve keeps_init_array keeps_unwind_rec : keepsdb.
Lemma keeps_initialize2 z :
  (forall t i dst l, keeps (tracked z) (initialize t i dst l)) /\ (forall fs kd is_ es dst temps, keeps (tracked z) (init_fields kd fs is_ es dst temps)).
Proof. apply vty_flds_ind; intros; cbn [initialize init_fields]; keeps. Qed.
Lemma keeps_initialize z t i dst l : keeps (tracked z) (initialize t i dst l).
Proof. apply keeps_initialize2. Qed.
Lemma keeps_read_array z f a off n : keeps (tracked z) (read_array f a off n).
Proof. unfold read_array. keeps. Qed.
#[export] Hint Resolve keeps_initialize keeps_read_array : keepsdb.
Lemma keeps_view2 z :
  (forall t a, keeps (tracked z) (view t a)) /\ (forall fs a es, keeps (tracked z) (view_flds fs a es)).
Proof. apply vty_flds_ind; intros; cbn [view view_flds]; keeps. Qed.
Lemma keeps_view z t a : keeps (tracked z) (view t a).
Proof. apply keeps_view2. Qed.
Lemma keeps_elem_mut z f a off n i : keeps (tracked z) (elem_mut f a off n i).
Proof. unfold elem_mut. keeps. Qed.
#[export] Hint Resolve keeps_view keeps_elem_mut : keepsdb.
Lemma keeps_locate2 z :
  (forall t a p, keeps (tracked z) (locate t a p)) /\ (forall fs a es j p, keeps (tracked z) (locate_fld fs a es j p)).
Proof. apply vty_flds_ind; intros; cbn [locate locate_fld]; keeps. Qed.
Lemma keeps_locate z t a p : keeps (tracked z) (locate t a p).
Proof. apply keeps_locate2. Qed.
Lemma keeps_ref_slice z f a off n : keeps (tracked z) (ref_slice f a off n).
Proof. unfold ref_slice. keeps. Qed.
#[export] Hint Resolve keeps_locate keeps_ref_slice : keepsdb.
Lemma keeps_field_slice z fs : forall a es j, keeps (tracked z) (field_slice fs a es j).
Proof. induction fs; intros; cbn [field_slice]; keeps. Qed.
#[export] Hint Resolve keeps_field_slice : keepsdb.
Lemma keeps_array_slice z t a j : keeps (tracked z) (array_slice t a j).
Proof. unfold array_slice. keeps. Qed.
Lemma keeps_sub_slice z s lo k : keeps (tracked z) (sub_slice s lo k).
Proof. unfold sub_slice. keeps. Qed.
Lemma keeps_assign z t a p new : keeps (tracked z) (assign t a p new).
Proof. unfold assign. keeps. Qed.
Lemma keeps_vclone2 z :
  (forall t a, keeps (tracked z) (vclone t a)) /\ (forall fs a es, keeps (tracked z) (vclone_flds fs a es)).
Proof. apply vty_flds_ind; intros; cbn [vclone vclone_flds]; keeps. Qed.
Lemma keeps_vclone z t a : keeps (tracked z) (vclone t a).
Proof. apply keeps_vclone2. Qed.
Lemma keeps_set_ctrls z a dp cf : forall news, keeps (tracked z) (set_ctrls a dp cf news).
Proof. induction cf; intros; cbn [set_ctrls]; keeps. Qed.
#[export] Hint Resolve keeps_array_slice keeps_sub_slice keeps_assign keeps_vclone keeps_set_ctrls : keepsdb.
Lemma keeps_try_set z fs a dp news : keeps (tracked z) (try_set_layout_controllers fs a dp news).
Proof. unfold try_set_layout_controllers. keeps. Qed.
Lemma keeps_vbox_new z t i : keeps (tracked z) (vbox_new t i).
Proof. unfold vbox_new. keeps. Qed.
Lemma keeps_owned_new_in z t i : keeps (tracked z) (owned_new_in t i).
Proof. unfold owned_new_in. keeps. Qed.
#[export] Hint Resolve keeps_try_set keeps_vbox_new keeps_owned_new_in : keepsdb.
(** sequences *)
Lemma keeps_lft {A} z (m : M world A) : keeps (tracked z) m -> keeps (@tracked2 sq z) (lft m).
Proof. intros Hm [w s] H. unfold lft. specialize (Hm w H). destruct (m w); auto. Qed.
Lemma keeps_get z : keeps (@tracked2 sq z) get_sq.
Proof. intros [w s] H. exact H. Qed.
Lemma keeps_set z s' : keeps (@tracked2 sq z) (set_sq s').
Proof. intros [w s] H. exact H. Qed.
Lemma keeps_lft_t {A} z (m : M world A) : keeps (tracked z) m -> keeps (@tracked2 tstate z) (lft_t m).
Proof. intros Hm [w s] H. unfold lft_t. specialize (Hm w H). destruct (m w); auto. Qed.
#[export] Hint Resolve keeps_get keeps_set : keepsdb.
Ltac keeps ::=
  repeat first
    [ assumption
    | solve [eauto 2 with keepsdb]
    | apply keeps_bind; [|intros ?]
    | apply keeps_unwind
    | apply keeps_each; intros ?
    | apply keeps_mapM; intros ?
    | apply keeps_lft
    | apply keeps_lft_t
    | match goal with
      | |- keeps _ (let '(_, _) := ?x in _) => destruct x as [? ?]
      | |- keeps _ (match ?x with _ => _ end) => destruct x as [] eqn:?
      | |- keeps _ (let _ := _ in _) => cbv zeta
      end ].
Lemma keeps_bitmask z size align : keeps (tracked z) (add_bitmask_to_layout size align).
Proof. unfold add_bitmask_to_layout, add_bitmask_lim. keeps. Qed.
#[export] Hint Resolve keeps_bitmask : keepsdb.
Lemma bitmask_layout size align full bytes w w' : add_bitmask_to_layout size align w = Ok (Some (full, bytes)) w' -> from_size_align full align = true.
Proof.
  unfold add_bitmask_to_layout, add_bitmask_lim. destruct (negb _); [discriminate|]. destruct (checked_add _ _) as [x|]; [|discriminate].
  cbv zeta. unfold padd. destruct (_ <? _); [|discriminate]. unfold bind, ret. destruct (from_size_align_lim ISIZE_MAX (size + x / 8) align) eqn:E; [|discriminate].
  intros H. injection H as <- <- _. exact E.
Qed.
Lemma keeps_alloc_storage z chk size align : from_size_align size align = true -> keeps (tracked z) (alloc_storage chk size align).
Proof.
  intros Hr. unfold alloc_storage. destruct chk; [|keeps]. apply keeps_bind_val; [auto with keepsdb|]. intros [[full bytes]|] w w' E; [|keeps].
  apply bitmask_layout in E. keeps.
Qed.
Lemma keeps_grow_storage z chk ptr os align ns : from_size_align ns align = true -> keeps (tracked z) (grow_storage chk ptr os align ns).
Proof.
  intros Hr. unfold grow_storage. destruct chk; [|keeps]. apply keeps_bind; [auto with keepsdb|]. intros [[ofull obytes]|]; [|keeps].
  destruct (negb _); [keeps|]. apply keeps_bind_val; [auto with keepsdb|]. intros [[full bytes]|] w w' E; [|keeps].
  apply bitmask_layout in E. keeps.
Qed.
Lemma keeps_mark z chk ptr cap o align : keeps (tracked z) (mark_offset_valid chk ptr cap o align).
Proof. unfold mark_offset_valid. keeps. Qed.
Lemma keeps_clear z chk ptr cap occ align : keeps (tracked z) (clear_bitmasks chk ptr cap occ align).
Proof. unfold clear_bitmasks. keeps. Qed.
Lemma keeps_extended z chk size align : keeps (tracked z) (extended_size chk size align).
Proof. unfold extended_size. keeps. Qed.
#[export] Hint Resolve keeps_alloc_storage keeps_grow_storage keeps_mark keeps_clear keeps_extended : keepsdb.
Lemma keeps_try_realloc z chk ptr cap mn align : keeps (tracked z) (try_realloc chk ptr cap mn align).
Proof.
  unfold try_realloc. destruct (checked_mul cap 2); [|keeps]. cbv zeta. destruct (checked_mul _ align) as [sb|]; [|keeps]. apply keeps_bind; [keeps|]. intros os.
  destruct (from_size_align os align); cbn [negb]; [|keeps]. destruct (from_size_align sb align) eqn:E; cbn [negb]; keeps.
Qed.
#[export] Hint Resolve keeps_try_realloc : keepsdb.
Lemma keeps_must_realloc z chk ptr cap mn align : keeps (tracked z) (must_realloc chk ptr cap mn align).
Proof. unfold must_realloc. keeps. Qed.
#[export] Hint Resolve keeps_must_realloc : keepsdb.
Lemma keeps_push z t chk i : keeps (@tracked2 sq z) (seq_push t chk i).
Proof. unfold seq_push. keeps. Qed.
Lemma keeps_next z t it : keeps (tracked z) (iter_next t it).
Proof. unfold iter_next. keeps. Qed.
#[export] Hint Resolve keeps_push keeps_next : keepsdb.
Lemma keeps_collect z t fuel : forall it, keeps (tracked z) (iter_collect t fuel it).
Proof. induction fuel; intros; cbn [iter_collect]; keeps. Qed.
#[export] Hint Resolve keeps_collect : keepsdb.
Lemma keeps_contents z t s : keeps (tracked z) (seq_contents t s).
Proof. unfold seq_contents. keeps. Qed.
Lemma keeps_offset_of z t s e : keeps (tracked z) (offset_of t s e).
Proof. unfold offset_of. keeps. Qed.
Lemma keeps_from_unchecked z t s o : keeps (tracked z) (from_offset_unchecked t s o).
Proof. unfold from_offset_unchecked. keeps. Qed.
Lemma keeps_offset_valid z t s o : keeps (tracked z) (is_offset_valid t s o).
Proof. unfold is_offset_valid. keeps. Qed.
#[export] Hint Resolve keeps_contents keeps_offset_of keeps_from_unchecked keeps_offset_valid : keepsdb.
Lemma keeps_from_offset z t s o : keeps (tracked z) (from_offset t s o).
Proof. unfold from_offset. keeps. Qed.
Lemma keeps_take z t chk : keeps (@tracked2 sq z) (take_elems t chk).
Proof. unfold take_elems. keeps. Qed.
Lemma keeps_drop_loop z t n : forall it, keeps (tracked z) (drop_elems_loop t n it).
Proof. induction n; intros; cbn [drop_elems_loop]; keeps. Qed.
#[export] Hint Resolve keeps_from_offset keeps_take keeps_drop_loop : keepsdb.
Lemma keeps_elems_drop z t it : keeps (tracked z) (owned_elems_drop t it).
Proof. unfold owned_elems_drop. keeps. Qed.
#[export] Hint Resolve keeps_elems_drop : keepsdb.
Lemma keeps_seq_drop z t chk : keeps (@tracked2 sq z) (seq_drop t chk).
Proof. unfold seq_drop. keeps. Qed.
#[export] Hint Resolve keeps_seq_drop : keepsdb.
(** programs *)
Lemma keeps_subobject2 z :
  (forall t a p, keeps (tracked z) (subobject t a p)) /\ (forall fs a es j p, keeps (tracked z) (subobject_fld fs a es j p)).
Proof. apply vty_flds_ind; intros; cbn [subobject subobject_fld]; keeps. Qed.
Lemma keeps_subobject z t a p : keeps (tracked z) (subobject t a p).
Proof. apply keeps_subobject2. Qed.
#[export] Hint Resolve keeps_subobject : keepsdb.
Lemma keeps_resolve z sl pl : keeps (tracked z) (resolve sl pl).
Proof. unfold resolve. keeps. Qed.
#[export] Hint Resolve keeps_resolve : keepsdb.
Lemma keeps_slice_init z sl cl pl j lo k : keeps (tracked z) (slice_init sl cl pl j lo k).
Proof. unfold slice_init. keeps. Qed.
#[export] Hint Resolve keeps_slice_init : keepsdb.
Lemma keeps_eval z sl : forall p, keeps (tracked z) (eval sl p).
Proof.
  fix IH 1. intros [v|v|n ai|ai|n cl pl j lo k|cl pl j lo k|h|pl|pl|p|ps]; cbn [eval]; keeps.
  induction ps as [|p ps IHps]; [apply keeps_ret|]. apply keeps_bind; [apply IH|]. intros i. apply keeps_bind; [exact IHps|]. intros; apply keeps_ret.
Qed.
#[export] Hint Resolve keeps_eval : keepsdb.
Lemma keeps_take_cmd z t c : keeps (@tracked2 tstate z) (take_cmd t c).
Proof.
  assert (Hh : forall j, keeps (@tracked2 tstate z) (held_at j)).
  { intros j [w s] H. cbn [held_at]. destruct (nth_error (snd s) j) as [[a|]|]; [exact H|exact I|exact I]. }
  assert (Hl : forall j, keeps (@tracked2 tstate z) (let_go j)).
  { intros j [w [it l]] H. exact H. }
  destruct c; cbn [take_cmd]; keeps.
  - intros [w [it l]] H. pose proof (keeps_next z t it w H) as Hn. destruct (iter_next t it w) as [[[a|] it'] w'|w'|u]; exact Hn.
  - intros [w [it l]] H. exact H.
Qed.
#[export] Hint Resolve keeps_take_cmd : keepsdb.
Lemma keeps_take_end z t keep s : keeps (tracked z) (take_end t keep s).
Proof. unfold take_end. keeps. Qed.
#[export] Hint Resolve keeps_take_end : keepsdb.
Lemma keeps_take_run z t it cmds keep : keeps (tracked z) (take_run t it cmds keep).
Proof.
  intros w H. unfold take_run.
  assert (Hm : keeps (@tracked2 tstate z) (mapM (take_cmd t) cmds)) by keeps.
  specialize (Hm (w, (it, [])) H).
  destruct (mapM (take_cmd t) cmds (w, (it, []))) as [outs [w' s]|[w' s]|u]; [| |exact I].
  - assert (Hs : keeps (tracked z) (take_end t keep s ;;; ret outs)) by keeps. exact (Hs w' Hm).
  - assert (Hs : keeps (tracked z) (take_end t false s ;;; (@panic world (list out)))) by keeps. exact (Hs w' Hm).
Qed.
Lemma keeps_mem_swap z a b n al : keeps (tracked z) (mem_swap a b n al).
Proof. unfold mem_swap. keeps. Qed.
#[export] Hint Resolve keeps_take_run keeps_mem_swap : keepsdb.
Lemma keeps_swap_leaves z t a q t' a' q' : keeps (tracked z) (swap_leaves t a q t' a' q').
Proof. unfold swap_leaves. keeps. Qed.
#[export] Hint Resolve keeps_swap_leaves : keepsdb.

(** ** whole programs *)
Lemma call_keeps {A} z (m : M world A) k kp w : keeps (tracked z) m -> tracked z w ->
  match call m k kp w with Ok _ c' | Panic c' => tracked z (fst c') | UB _ => True end.
Proof. intros Hm H. unfold call. specialize (Hm w H). destruct (m w); exact Hm. Qed.
Lemma call_seq_keeps {A} z (m : SM A) s k kp w : keeps (@tracked2 sq z) m -> tracked z w ->
  match call_seq m s k kp w with Ok _ c' | Panic c' => tracked z (fst c') | UB _ => True end.
Proof. intros Hm H. unfold call_seq. specialize (Hm (w, s) H). destruct (m (w, s)) as [a [w' s']|[w' s']|u]; exact Hm. Qed.
Lemma exec_keeps z o w sl : tracked z w -> match exec o (w, sl) with Ok _ c' | Panic c' => tracked z (fst c') | UB _ => True end.
Proof.
  intros H. destruct o; cbn [exec];
    repeat match goal with |- match (match ?x with _ => _ end) with _ => _ end => destruct x end;
    try exact I; try exact H;
    first [apply call_keeps; [keeps|exact H]|apply call_seq_keeps; [keeps|exact H]].
Qed.
Lemma xexec_keeps z o w sl xs : tracked z w -> match xexec o (w, sl, xs) with Ok _ c' | Panic c' => tracked z (fst (fst c')) | UB _ => True end.
Proof.
  intros H. destruct o as [o|h|k|k|k keep|k]; cbn [xexec].
  - pose proof (exec_keeps z o w sl H) as He. destruct (exec o (w, sl)) as [r [w' sl']|[w' sl']|u]; exact He.
  - destruct (nth_error sl h) as [[]|]; try exact I. pose proof (keeps_take z t chk (w, s) H) as Ht.
    destruct (take_elems t chk (w, s)) as [it [w' s']|[w' s']|u]; exact Ht.
  - destruct (nth_error xs k) as [[[h t chk s [it|] todo]|]|]; try exact I. pose proof (keeps_next z t it w H) as Ht.
    destruct (iter_next t it w) as [[[a|] it'] w'|w'|u]; [destruct todo; [exact I|exact Ht]|exact Ht|exact Ht|exact I].
  - destruct (nth_error xs k) as [[[h t chk s [it|] todo]|]|]; try exact I. exact H.
  - destruct (nth_error xs k) as [[[h t chk s [it|] todo]|]|]; try exact I.
    assert (Hm : keeps (tracked z) (if keep then ret tt else owned_elems_drop t it)) by keeps. specialize (Hm w H).
    destruct ((if keep then ret tt else owned_elems_drop t it) w); exact Hm.
  - destruct (nth_error xs k) as [[[h t chk s [it|] todo]|]|]; try exact I. exact H.
Qed.

(** ** text *)
Lemma keeps_write_bytes z k a : forall bs i, keeps (tracked z) (write_bytes k a i bs).
Proof. induction bs; intros; cbn [write_bytes]; keeps. Qed.
Lemma keeps_str_text z k a : keeps (tracked z) (str_text k a).
Proof. unfold str_text, str_deref. keeps. Qed.
#[export] Hint Resolve keeps_write_bytes keeps_str_text : keepsdb.
Lemma keeps_str_edit z k a g : keeps (tracked z) (str_edit k a g).
Proof. unfold str_edit. keeps. Qed.
#[export] Hint Resolve keeps_str_edit : keepsdb.
Lemma exec_s_keeps z o w sl : tracked z w -> match exec_s o (w, sl) with Ok _ c' | Panic c' => tracked z (fst c') | UB _ => True end.
Proof.
  intros H. destruct o as [o|pl|pl g]; cbn [exec_s].
  - pose proof (exec_keeps z o w sl H) as He. destruct (exec o (w, sl)) as [r c|c|u]; exact He.
  - match goal with |- match (match ?m w with _ => _ end) with _ => _ end => assert (Hm : keeps (tracked z) m) by keeps; specialize (Hm w H); destruct (m w); exact Hm end.
  - match goal with |- match (match ?m w with _ => _ end) with _ => _ end => assert (Hm : keeps (tracked z) m) by keeps; specialize (Hm w H); destruct (m w); exact Hm end.
Qed.

(** ** destructors that panic *)
Definition dkeeps {S A} (P : S -> Prop) (m : D S A) : Prop :=
  forall s, P s -> match m s with DOk _ s' | DPanic s' => P s' | DAbort | DUB _ => True end.
Lemma dkeeps_ret {S A} (P : S -> Prop) (a : A) : dkeeps P (dret a).
Proof. intros s H. exact H. Qed.
Lemma dkeeps_pan {S A} (P : S -> Prop) : @dkeeps S A P (fun s => DPanic s).
Proof. intros s H. exact H. Qed.
Lemma dkeeps_ub {S A} (P : S -> Prop) u : @dkeeps S A P (fun _ => DUB u).
Proof. intros s H. exact I. Qed.
Lemma dkeeps_lift {S A} (P : S -> Prop) (m : M S A) : keeps P m -> dkeeps P (dlift m).
Proof. intros Hm s H. unfold dlift. specialize (Hm s H). destruct (m s); exact Hm. Qed.
Lemma dkeeps_bind {S A B} (P : S -> Prop) (m : D S A) (k : A -> D S B) : dkeeps P m -> (forall a, dkeeps P (k a)) -> dkeeps P (dbind m k).
Proof. intros Hm Hk s H. unfold dbind. specialize (Hm s H). destruct (m s) as [a s'|s'| |u]; [exact (Hk a s' Hm)|exact Hm|exact I|exact I]. Qed.
Lemma dkeeps_unwind {S A} (P : S -> Prop) (m : D S A) c : dkeeps P m -> dkeeps P c -> dkeeps P (dunwind m c).
Proof.
  intros Hm Hc s H. unfold dunwind. specialize (Hm s H). destruct (m s) as [a s'|s'| |u]; [exact Hm| |exact I|exact I].
  specialize (Hc s' Hm). destruct (c s'); auto.
Qed.
Lemma dkeeps_mapM {S A B} (P : S -> Prop) (f : A -> D S B) l : (forall a, dkeeps P (f a)) -> dkeeps P (dmapM f l).
Proof. intros H. induction l; cbn [dmapM]; [apply dkeeps_ret|]. apply dkeeps_bind; [auto|]. intros y. apply dkeeps_bind; [auto|]. intros ys. apply dkeeps_ret. Qed.
Lemma dkeeps_lft {A} z (m : D world A) : dkeeps (tracked z) m -> dkeeps (@tracked2 sq z) (dlft m).
Proof. intros Hm [w s] H. unfold dlft. specialize (Hm w H). destruct (m w); auto. Qed.
Lemma dkeeps_lft_t {A} z (m : D world A) : dkeeps (tracked z) m -> dkeeps (@tracked2 tstate z) (dlft_t m).
Proof. intros Hm [w s] H. unfold dlft_t. specialize (Hm w H). destruct (m w); auto. Qed.
Create HintDb dkeepsdb.
#[export] Hint Resolve dkeeps_ret dkeeps_pan dkeeps_ub : dkeepsdb.
Ltac dkeeps :=
  repeat first
    [ assumption
    | solve [eauto 2 with dkeepsdb]
    | apply dkeeps_bind; [|intros ?]
    | apply dkeeps_unwind
    | apply dkeeps_mapM; intros ?
    | apply dkeeps_lft
    | apply dkeeps_lft_t
    | solve [apply dkeeps_lift; keeps]
    | match goal with
      | |- dkeeps _ (let '(_, _) := ?x in _) => destruct x as [? ?]
      | |- dkeeps _ (match ?x with _ => _ end) => destruct x as [] eqn:?
      | |- dkeeps _ (let _ := _ in _) => cbv zeta
      end ].
Lemma dkeeps_destructor z dp bs : dkeeps (tracked z) (run_destructor dp bs).
Proof. unfold run_destructor. dkeeps. Qed.
#[export] Hint Resolve dkeeps_destructor : dkeepsdb.
Lemma dkeeps_drop_leaf z dp f a : dkeeps (tracked z) (drop_leaf_p dp f a).
Proof. unfold drop_leaf_p. dkeeps. Qed.
Lemma dkeeps_drop_value z dp f v : dkeeps (tracked z) (drop_value_p dp f v).
Proof. unfold drop_value_p. dkeeps. Qed.
#[export] Hint Resolve dkeeps_drop_leaf dkeeps_drop_value : dkeepsdb.
Lemma dkeeps_drop_seq z dp f l : dkeeps (tracked z) (drop_seq_p dp f l).
Proof. induction l; cbn [drop_seq_p]; dkeeps. Qed.
#[export] Hint Resolve dkeeps_drop_seq : dkeepsdb.
Lemma dkeeps_drop_array z dp f a off n : dkeeps (tracked z) (drop_array_p dp f a off n).
Proof. unfold drop_array_p. dkeeps. Qed.
#[export] Hint Resolve dkeeps_drop_array : dkeepsdb.
Lemma dkeeps_vdrop2 z dp :
  (forall t a l, dkeeps (tracked z) (vdrop_p dp t a l)) /\ (forall fs a es, dkeeps (tracked z) (vdrop_flds_p dp fs a es)).
Proof. apply vty_flds_ind; intros; cbn [vdrop_p vdrop_flds_p]; dkeeps. Qed.
Lemma dkeeps_vdrop z dp t a l : dkeeps (tracked z) (vdrop_p dp t a l).
Proof. apply dkeeps_vdrop2. Qed.
#[export] Hint Resolve dkeeps_vdrop : dkeepsdb.
Lemma dkeeps_vbox_drop z dp t a : dkeeps (tracked z) (vbox_drop_p dp t a).
Proof. unfold vbox_drop_p. dkeeps. Qed.
Lemma dkeeps_owned_drop z dp t a : dkeeps (tracked z) (owned_drop_p dp t a).
Proof. unfold owned_drop_p. dkeeps. Qed.
#[export] Hint Resolve dkeeps_vbox_drop dkeeps_owned_drop : dkeepsdb.
Lemma dkeeps_elems_loop z dp t n : forall it, dkeeps (tracked z) (drop_elems_loop_p dp t n it).
Proof. induction n; intros; cbn [drop_elems_loop_p]; dkeeps. Qed.
#[export] Hint Resolve dkeeps_elems_loop : dkeepsdb.
Lemma dkeeps_elems z dp t it : dkeeps (tracked z) (owned_elems_drop_p dp t it).
Proof. unfold owned_elems_drop_p. dkeeps. Qed.
#[export] Hint Resolve dkeeps_elems : dkeepsdb.
Lemma dkeeps_drain z dp t chk : dkeeps (@tracked2 sq z) (drain_p dp t chk).
Proof. unfold drain_p. dkeeps. Qed.
#[export] Hint Resolve dkeeps_drain : dkeepsdb.
Lemma dkeeps_seq_drop z dp t chk : dkeeps (@tracked2 sq z) (seq_drop_p dp t chk).
Proof. unfold seq_drop_p. dkeeps. Qed.
Lemma dkeeps_assign z dp t a p new : dkeeps (tracked z) (assign_p dp t a p new).
Proof. unfold assign_p. dkeeps. Qed.
#[export] Hint Resolve dkeeps_seq_drop dkeeps_assign : dkeepsdb.
Lemma dkeeps_drop_values z dp l : dkeeps (tracked z) (drop_values_p dp l).
Proof. induction l; cbn [drop_values_p]; dkeeps. Qed.
#[export] Hint Resolve dkeeps_drop_values : dkeepsdb.
Lemma dkeeps_set_ctrls z dp a cf : forall news, dkeeps (tracked z) (set_ctrls_p dp a cf news).
Proof. induction cf; intros; cbn [set_ctrls_p]; dkeeps. Qed.
#[export] Hint Resolve dkeeps_set_ctrls : dkeepsdb.
Lemma dkeeps_try_set z dp fs a news : dkeeps (tracked z) (try_set_p dp fs a news).
Proof. unfold try_set_p. dkeeps. Qed.
#[export] Hint Resolve dkeeps_try_set : dkeepsdb.
Lemma keeps_held z j : keeps (@tracked2 tstate z) (held_at j).
Proof. intros [w s] H. cbn [held_at]. destruct (nth_error (snd s) j) as [[a|]|]; [exact H|exact I|exact I]. Qed.
Lemma keeps_let_go z j : keeps (@tracked2 tstate z) (let_go j).
Proof. intros [w [it l]] H. exact H. Qed.
#[export] Hint Resolve keeps_held keeps_let_go : keepsdb.
Lemma dkeeps_take_cmd z dp t c : dkeeps (@tracked2 tstate z) (take_cmd_p dp t c).
Proof. destruct c; cbn [take_cmd_p]; dkeeps. Qed.
Lemma dkeeps_drop_held z dp t l : dkeeps (tracked z) (drop_held_p dp t l).
Proof. induction l as [|[a|] l IH]; cbn [drop_held_p]; dkeeps. Qed.
#[export] Hint Resolve dkeeps_take_cmd dkeeps_drop_held : dkeepsdb.
Lemma dkeeps_take_end z dp t keep s : dkeeps (tracked z) (take_end_p dp t keep s).
Proof. unfold take_end_p. dkeeps. Qed.
#[export] Hint Resolve dkeeps_take_end : dkeepsdb.
Lemma dkeeps_take_run z dp t it cmds keep : dkeeps (tracked z) (take_run_p dp t it cmds keep).
Proof.
  intros w H. unfold take_run_p.
  assert (Hm : dkeeps (@tracked2 tstate z) (dmapM (take_cmd_p dp t) cmds)) by dkeeps. specialize (Hm (w, (it, [])) H).
  destruct (dmapM (take_cmd_p dp t) cmds (w, (it, []))) as [outs [w' s]|[w' s]| |u]; [| |exact I|exact I].
  - assert (Hs : dkeeps (tracked z) (take_end_p dp t keep s ~;; dret outs)) by dkeeps. exact (Hs w' Hm).
  - assert (Hs : dkeeps (tracked z) (dunwind (fun w : world => @DPanic world (list out) w) (take_end_p dp t false s))) by dkeeps. exact (Hs w' Hm).
Qed.
#[export] Hint Resolve dkeeps_take_run : dkeepsdb.
Lemma call_p_keeps {A} z (m : D world A) k kp w : dkeeps (tracked z) m -> tracked z w ->
  match call_p m k kp w with DOk _ c' | DPanic c' => tracked z (fst c') | DAbort | DUB _ => True end.
Proof. intros Hm H. unfold call_p. specialize (Hm w H). destruct (m w); exact Hm. Qed.
Lemma call_seq_p_keeps {A} z (m : D (world * sq) A) s k kp w : dkeeps (@tracked2 sq z) m -> tracked z w ->
  match call_seq_p m s k kp w with DOk _ c' | DPanic c' => tracked z (fst c') | DAbort | DUB _ => True end.
Proof. intros Hm H. unfold call_seq_p. specialize (Hm (w, s) H). destruct (m (w, s)) as [a [w' s']|[w' s']| |u]; exact Hm. Qed.
Lemma exec_p_keeps z dp o w sl : tracked z w -> match exec_p dp o (w, sl) with DOk _ c' | DPanic c' => tracked z (fst c') | DAbort | DUB _ => True end.
Proof.
  intros H. pose proof (exec_keeps z o w sl H) as He. destruct o; cbn [exec_p];
    try (match goal with |- match (match exec ?o ?c with _ => _ end) with _ => _ end => destruct (exec o c) as [r c'|c'|u]; [exact He| |exact I]; destruct (existsb _ _); [exact I|exact He] end);
    clear He; repeat match goal with |- match (match ?x with _ => _ end) with _ => _ end => destruct x end;
    try exact I;
    first [apply call_p_keeps; [dkeeps|exact H]|apply call_seq_p_keeps; [dkeeps|exact H]].
Qed.
