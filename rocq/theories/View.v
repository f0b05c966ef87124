(** View.v - reading whole objects and running their destructors. *)
From Verif Require Export Repr.

Lemma view_ok_all :
  (forall t, wf_ty t -> forall w a v, obj_at w t a v -> view t a w = Ok v w) /\
  (forall fs, wf_flds fs -> forall w a vs cs pos A,
     vok_flds fs vs cs -> flds_place (w_blocks w) fs A a (sp_end fs (map vshape vs) pos) ->
     hdr_in fs A (sp_end fs (map vshape vs) pos) ->
     repr_flds (w_mem w) fs a vs pos ->
     view_flds fs a (sp_tail fs (map vshape vs) pos) w = Ok vs w).
Proof.
  apply vty_flds_ind.
  - intros f Hwf w a v (Hv & Hp & Hr). destruct v; try contradiction. cbn [view repr vok] in *.
    destruct Hp as (P0 & Pm & PW & Pl). unfold vsize in Pl; cbn [vshape sp_size sp_align] in *.
    step (load_ok w a (f_size f) (f_align f) P0 Pm Pl). unfold ret. now rewrite Hr.
  - intros f k Hwf w a v Ho. pose proof Ho as (Hv & Hp & Hr). destruct v as [|xs| |]; try contradiction.
    cbn [view]. step (calc_layout_ok (TArray f k) w a (VArr xs) Hwf Ho). cbn [vshape sp_lay repr vok] in *.
    destruct (arr_place _ _ _ _ _ Hwf Hp) as (B1 & B2 & B3 & B4).
    rewrite (bind_ok _ _ w xs w); [reflexivity|]. apply read_array_ok; auto; tauto.
  - intros t IH Hwf w a v (Hv & Hp & Hr). destruct v as [| |v|]; try contradiction. cbn [view].
    rewrite (bind_ok _ _ w v w); [reflexivity|]. apply IH; [exact Hwf|]. split; [exact Hv|split; [exact Hp|exact Hr]].
  - intros kd hs ha fs IH Hwf w a v Ho. pose proof Ho as (Hv & Hp & Hr). destruct v as [| | |vs]; try contradiction.
    cbn [view]. step (calc_layout_ok (TRec kd hs ha fs) w a (VRec vs) Hwf Ho).
    cbn [vok repr] in *. unfold vsize in *; cbn [vshape sp_size sp_lay] in *.
    assert (Hge : hs <= sp_end fs (map vshape vs) hs) by (apply sp_end_ge, Hwf).
    destruct (rec_place kd hs ha fs (w_blocks w) a _ Hwf Hp Hge) as [Hfp Hh].
    rewrite (bind_ok _ _ w vs w); [reflexivity|].
    eapply IH; eauto. apply Hwf.
  - intros _ w a vs cs pos A Hv Hp Hh Hr. destruct vs; try contradiction. reflexivity.
  - intros off f r IH [Hf Hwr] w a vs cs pos A Hv Hp Hh Hr.
    destruct vs as [|[bs| | |] vs]; try contradiction. cbn [vok_flds repr_flds map vshape sp_end sp_tail view_flds] in *.
    destruct (fhdr_place _ (FNormal off f r) off f r A a _ eq_refl Hf ltac:(cbn [sp_falign]; lia) Hp Hh) as (B1 & B2 & B3 & B4 & B5 & B6).
    rewrite wadd_small by auto. step (load_ok w _ _ _ B2 B3 B4).
    destruct Hr as [Hr1 Hr2]. rewrite (bind_ok _ _ w vs w); [unfold ret; now rewrite Hr1|].
    eapply IH; eauto. apply Hv.
  - intros off f r IH [Hf Hwr] w a vs cs pos A Hv Hp Hh Hr.
    destruct vs as [|[bs| | |] vs]; try contradiction. cbn [vok_flds repr_flds map vshape sp_end sp_tail view_flds] in *.
    destruct (fhdr_place _ (FLength off f r) off f r A a _ eq_refl Hf ltac:(cbn [sp_falign]; lia) Hp Hh) as (B1 & B2 & B3 & B4 & B5 & B6).
    rewrite wadd_small by auto. step (load_ok w _ _ _ B2 B3 B4).
    destruct Hr as [Hr1 Hr2]. rewrite (bind_ok _ _ w vs w); [unfold ret; now rewrite Hr1|].
    eapply IH; eauto. apply Hv.
  - intros t IHt r IH [Hwt Hwr] w a vs cs pos A Hv Hp Hh Hr.
    destruct vs as [|v vs]; try contradiction. cbn [vok_flds repr_flds map sp_tail view_flds] in *.
    destruct (fvar_place _ _ _ _ _ _ _ _ Hwt Hwr Hp) as (B1 & B2 & B3).
    destruct Hr as [Hr1 Hr2]. destruct Hv as [Hv1 Hv2].
    rewrite wadd_small by auto.
    step (place_deref t w _ _ Hwt B2 (head_size_le t v Hwt Hv1)).
    rewrite (bind_ok _ _ w v w); [|apply IHt; auto; split; auto].
    rewrite (bind_ok _ _ w vs w); [reflexivity|]. eapply IH; eauto.
  - intros f lf r IH (Hf & Hwr) w a vs cs pos A Hv Hp Hh Hr.
    destruct vs as [|[|xs| |] vs]; try contradiction. cbn [vok_flds repr_flds map vshape sp_tail view_flds] in *.
    destruct (farr_place _ _ _ _ _ _ _ _ _ Hf Hwr Hp) as ((B1 & B2 & B3 & B4) & B5).
    destruct Hr as [Hr1 Hr2]. destruct Hv as (Hx & Hn & Hv2).
    step (read_array_ok f a _ xs w Hf Hx B1 B2 B3 B4 Hr1).
    rewrite (bind_ok _ _ w vs w); [reflexivity|]. eapply IH; eauto.
Qed.
Lemma view_ok t w a v : wf_ty t -> obj_at w t a v -> view t a w = Ok v w.
Proof. intros. now apply view_ok_all. Qed.

(** ** destructors *)
Lemma add_log_nil w : add_log w [] = w.
Proof. destruct w. unfold add_log; cbn. now rewrite app_nil_r. Qed.
Lemma add_log_app w e1 e2 : add_log (add_log w e1) e2 = add_log w (e1 ++ e2).
Proof. unfold add_log; cbn. now rewrite app_assoc. Qed.

Lemma drop_value_ok f v w : drop_value f v w = Ok tt (add_log w (drop_events f [v])).
Proof.
  unfold drop_value, drop_events. destruct (f_drop f); cbn [map]; [reflexivity|].
  unfold ret. now rewrite add_log_nil.
Qed.
Lemma drop_leaf_ok f a w :
  a <> 0 -> a mod f_align f = 0 -> live (w_blocks w) a (f_size f) ->
  drop_leaf f a w = Ok tt (add_log w (drop_events f [rd (w_mem w) a (f_size f)])).
Proof.
  intros. unfold drop_leaf, drop_events. destruct (f_drop f); cbn [map].
  - now step (load_ok w a (f_size f) (f_align f) H H0 H1).
  - unfold ret. now rewrite add_log_nil.
Qed.
Lemma drop_values_ok f vs w : for_each (drop_value f) vs w = Ok tt (add_log w (drop_events f vs)).
Proof.
  revert w; induction vs as [|v vs IH]; intros w; cbn [for_each].
  - unfold drop_events. destruct (f_drop f); cbn [map]; unfold ret; now rewrite add_log_nil.
  - step (drop_value_ok f v w). rewrite IH, add_log_app. do 2 f_equal.
    unfold drop_events. destruct (f_drop f); reflexivity.
Qed.
Lemma drop_events_app f x y : drop_events f (x ++ y) = drop_events f x ++ drop_events f y.
Proof. unfold drop_events. destruct (f_drop f); [apply map_app|reflexivity]. Qed.
Lemma drop_events_if f xs : drop_events f xs = map EDrop (if f_drop f then xs else []).
Proof. unfold drop_events. now destruct (f_drop f). Qed.

Lemma drop_array_ok f a off xs w :
  fty_ok f -> elems_ok f xs -> a + off < W -> a + off <> 0 -> (a + off) mod f_align f = 0 ->
  live (w_blocks w) (a + off) (len xs * f_size f) ->
  rd (w_mem w) (a + off) (len xs * f_size f) = concat xs ->
  drop_array f a off (len xs) w = Ok tt (add_log w (drop_events f xs)).
Proof.
  intros Hf Hx HW H0 Hm Hl Hr. unfold drop_array. rewrite wadd_small by auto.
  step (check_ref_ok w _ _ _ H0 Hm Hl).
  pose proof (rd_chunks (w_mem w) (a + off) f xs Hx Hr) as E.
  assert (G : forall l w', (forall i, In i l -> i < len xs) -> w_blocks w' = w_blocks w -> w_mem w' = w_mem w ->
     for_each (fun i => drop_leaf f (a + off + i * f_size f)) l w' =
     Ok tt (add_log w' (drop_events f (map (fun i => rd (w_mem w) (a + off + i * f_size f) (f_size f)) l)))).
  { induction l as [|i l IH]; intros w' Hi Hb Hm'; cbn [for_each map].
    - unfold drop_events. destruct (f_drop f); cbn [map]; unfold ret; now rewrite add_log_nil.
    - destruct (elem_place f (a + off) (len xs) (w_blocks w) i Hf H0 Hm Hl (Hi i (or_introl eq_refl))) as (B1 & B2 & B3).
      rewrite <- Hb in B3. step (drop_leaf_ok f _ w' B1 B2 B3). rewrite IH; auto.
      + rewrite add_log_app, Hm'. do 2 f_equal. unfold drop_events. now destruct (f_drop f).
      + intros; apply Hi; right; auto. }
  rewrite G; auto.
  - now rewrite E.
  - intros i Hi. now apply in_upto.
Qed.

Lemma no_vdrop_all :
  (forall t v, vok t v -> needs_vdrop t = false -> vdrops t v = []) /\
  (forall fs vs cs, vok_flds fs vs cs -> fneeds fs = false -> vdrops_flds fs vs = []).
Proof.
  apply vty_flds_ind.
  - discriminate.
  - intros f k v Hv Hn. destruct v; try contradiction. cbn in *. now rewrite Hn.
  - intros t IH v Hv Hn. destruct v; try contradiction. apply IH; auto.
  - intros kd hs ha fs IH v Hv Hn. destruct v; try contradiction. eapply IH; eauto.
  - intros vs cs Hv Hn. destruct vs; try contradiction. reflexivity.
  - intros off f r IH vs cs Hv Hn. destruct vs as [|[] vs]; try contradiction. cbn in *.
    apply orb_false_iff in Hn. destruct Hn as [-> Hn]. eapply IH; eauto. apply Hv.
  - intros off f r IH vs cs Hv Hn. destruct vs as [|[] vs]; try contradiction. cbn in *.
    apply orb_false_iff in Hn. destruct Hn as [-> Hn]. eapply IH; eauto. apply Hv.
  - intros t IHt r IH vs cs Hv Hn. destruct vs as [|v vs]; try contradiction. cbn in *.
    apply orb_false_iff in Hn. destruct Hn as [Hn1 Hn]. rewrite (IHt v); [|apply Hv|exact Hn1].
    eapply IH; eauto. apply Hv.
  - intros f lf r IH vs cs Hv Hn. destruct vs as [|[] vs]; try contradiction. cbn in *.
    apply orb_false_iff in Hn. destruct Hn as [-> Hn]. eapply IH; eauto. apply Hv.
Qed.

Lemma vdrop_ok_all :
  (forall t, wf_ty t -> forall w a v, obj_at w t a v ->
     vdrop t a (sp_lay t (vshape v)) w = Ok tt (add_log w (map EDrop (vdrops t v)))) /\
  (forall fs, wf_flds fs -> forall w a vs cs pos A,
     vok_flds fs vs cs -> flds_place (w_blocks w) fs A a (sp_end fs (map vshape vs) pos) ->
     hdr_in fs A (sp_end fs (map vshape vs) pos) ->
     repr_flds (w_mem w) fs a vs pos ->
     vdrop_flds fs a (sp_tail fs (map vshape vs) pos) w = Ok tt (add_log w (map EDrop (vdrops_flds fs vs)))).
Proof.
  apply vty_flds_ind.
  - intros f Hwf w a v (Hv & Hp & Hr). destruct v; try contradiction. cbn [vdrop vshape sp_lay vdrops repr vok] in *.
    destruct Hp as (P0 & Pm & PW & Pl). unfold vsize in Pl; cbn [vshape sp_size sp_align] in *.
    rewrite drop_leaf_ok by auto. now rewrite Hr, drop_events_if.
  - intros f k Hwf w a v Ho. pose proof Ho as (Hv & Hp & Hr). destruct v as [|xs| |]; try contradiction.
    cbn [vdrop vshape sp_lay vdrops repr vok] in *.
    destruct (arr_place _ _ _ _ _ Hwf Hp) as (B1 & B2 & B3 & B4).
    rewrite drop_array_ok; auto; try tauto. now rewrite drop_events_if.
  - intros t IH Hwf w a v (Hv & Hp & Hr). destruct v as [| |v|]; try contradiction. cbn [vdrop vshape sp_lay vdrops].
    destruct (needs_vdrop t) eqn:E.
    + apply IH; auto. split; [exact Hv|split; [exact Hp|exact Hr]].
    + rewrite (proj1 no_vdrop_all t v Hv E). cbn [map]. now rewrite add_log_nil.
  - intros kd hs ha fs IH Hwf w a v Ho. pose proof Ho as (Hv & Hp & Hr). destruct v as [| | |vs]; try contradiction.
    cbn [vok repr vdrop vdrops] in *. unfold vsize in *; cbn [vshape sp_size sp_lay] in *.
    assert (Hge : hs <= sp_end fs (map vshape vs) hs) by (apply sp_end_ge, Hwf).
    destruct (rec_place kd hs ha fs (w_blocks w) a _ Hwf Hp Hge) as [Hfp Hh].
    assert (G : vdrop_flds fs a (sp_tail fs (map vshape vs) hs) w = Ok tt (add_log w (map EDrop (vdrops_flds fs vs)))).
    { eapply IH; eauto. apply Hwf. }
    destruct kd; [|exact G]. destruct (fneeds fs) eqn:E; [exact G|].
    rewrite (proj2 no_vdrop_all fs vs _ Hv E). cbn [map]. now rewrite add_log_nil.
  - intros _ w a vs cs pos A Hv Hp Hh Hr. destruct vs; try contradiction. cbn. now rewrite add_log_nil.
  - intros off f r IH [Hf Hwr] w a vs cs pos A Hv Hp Hh Hr.
    destruct vs as [|[bs| | |] vs]; try contradiction. cbn [vok_flds repr_flds map vshape sp_end sp_tail vdrop_flds vdrops_flds] in *.
    destruct (fhdr_place _ (FNormal off f r) off f r A a _ eq_refl Hf ltac:(cbn [sp_falign]; lia) Hp Hh) as (B1 & B2 & B3 & B4 & B5 & B6).
    rewrite wadd_small by auto. step (drop_leaf_ok f _ w B2 B3 B4).
    destruct Hr as [Hr1 Hr2]. rewrite (IH Hwr _ a vs cs pos A); auto; [|apply Hv].
    rewrite add_log_app, Hr1, map_app, drop_events_if. reflexivity.
  - intros off f r IH [Hf Hwr] w a vs cs pos A Hv Hp Hh Hr.
    destruct vs as [|[bs| | |] vs]; try contradiction. cbn [vok_flds repr_flds map vshape sp_end sp_tail vdrop_flds vdrops_flds] in *.
    destruct (fhdr_place _ (FLength off f r) off f r A a _ eq_refl Hf ltac:(cbn [sp_falign]; lia) Hp Hh) as (B1 & B2 & B3 & B4 & B5 & B6).
    rewrite wadd_small by auto. step (drop_leaf_ok f _ w B2 B3 B4).
    destruct Hr as [Hr1 Hr2]. rewrite (IH Hwr _ a vs cs pos A); auto; [|apply Hv].
    rewrite add_log_app, Hr1, map_app, drop_events_if. reflexivity.
  - intros t IHt r IH [Hwt Hwr] w a vs cs pos A Hv Hp Hh Hr.
    destruct vs as [|v vs]; try contradiction. cbn [vok_flds repr_flds map sp_tail vdrop_flds vdrops_flds] in *.
    destruct (fvar_place _ _ _ _ _ _ _ _ Hwt Hwr Hp) as (B1 & B2 & B3).
    destruct Hr as [Hr1 Hr2]. destruct Hv as [Hv1 Hv2].
    rewrite wadd_small by auto.
    step (place_deref t w _ _ Hwt B2 (head_size_le t v Hwt Hv1)).
    rewrite (bind_ok _ _ w tt (add_log w (map EDrop (vdrops t v)))); [|apply IHt; auto; split; auto].
    rewrite (IH Hwr _ a vs cs _ A); auto. now rewrite add_log_app, map_app.
  - intros f lf r IH (Hf & Hwr) w a vs cs pos A Hv Hp Hh Hr.
    destruct vs as [|[|xs| |] vs]; try contradiction. cbn [vok_flds repr_flds map vshape sp_tail vdrop_flds vdrops_flds] in *.
    destruct (farr_place _ _ _ _ _ _ _ _ _ Hf Hwr Hp) as ((B1 & B2 & B3 & B4) & B5).
    destruct Hr as [Hr1 Hr2]. destruct Hv as (Hx & Hn & Hv2).
    step (drop_array_ok f a _ xs w Hf Hx B1 B2 B3 B4 Hr1).
    rewrite (IH Hwr _ a vs cs _ A); auto. rewrite add_log_app, map_app, drop_events_if. reflexivity.
Qed.
Lemma vdrop_ok t w a v : wf_ty t -> obj_at w t a v ->
  vdrop t a (sp_lay t (vshape v)) w = Ok tt (add_log w (map EDrop (vdrops t v))).
Proof. intros. now apply vdrop_ok_all. Qed.

Lemma owned_drop_ok t w a v : wf_ty t -> obj_at w t a v ->
  owned_drop t a w = Ok tt (add_log w (map EDrop (vdrops t v))).
Proof.
  intros Hwf Ho. unfold owned_drop. step (deref_ok t w a v Hwf Ho).
  step (calc_layout_ok t w a v Hwf Ho). now apply vdrop_ok.
Qed.
Lemma is_block_in bl b : In b bl -> b_heap b = true -> is_block bl (b_base b) (b_size b) (b_align b) = true.
Proof.
  intros Hin Hh. unfold is_block. apply existsb_exists. exists b. split; auto.
  unfold block_eqb. now rewrite !N.eqb_refl, Hh.
Qed.
Lemma dealloc_ok w a n al :
  In (mkB a n al true) (w_blocks w) ->
  dealloc a n al w = Ok tt (add_log (set_blocks w (without (w_blocks w) [a])) [EDealloc a n al]).
Proof.
  intros H. unfold dealloc. rewrite (is_block_in _ _ H eq_refl : is_block (w_blocks w) a n al = true).
  now rewrite without_del.
Qed.
Lemma vbox_drop_ok t w a v : wf_ty t -> obj_at w t a v -> In (box_block t a v) (w_blocks w) ->
  vbox_drop t a w =
    Ok tt (add_log (set_blocks w (without (w_blocks w) [a]))
             (map EDrop (vdrops t v) ++ [EDealloc a (vsize t v) (sp_align t)])).
Proof.
  intros Hwf Ho Hb. unfold vbox_drop. step (deref_ok t w a v Hwf Ho).
  step (calc_layout_ok t w a v Hwf Ho). step (vdrop_ok t w a v Hwf Ho).
  rewrite lay_size_sp by apply Ho. rewrite valign_sp by auto.
  rewrite dealloc_ok by exact Hb. unfold add_log, set_blocks; cbn. now rewrite app_assoc.
Qed.
