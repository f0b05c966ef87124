(** SeqDrop.v - take_elems, OwnedElems, Drop, mutation through iter_mut, extend and collect. *)
From Verif Require Export SeqIter.

(** ** objects survive changes of the log only *)
Lemma obj_log w t a v e : obj_at w t a v -> obj_at (add_log w e) t a v.
Proof. intros H. exact H. Qed.
Lemma objs_log w t base vs e : objs_at w t base vs -> objs_at (add_log w e) t base vs.
Proof. revert base; induction vs as [|v vs IH]; intros base H; [exact I|]. destruct H; split; auto. Qed.
Lemma iter_log w t it vs e : iter_at w t it vs -> iter_at (add_log w e) t it vs.
Proof. intros (A & B & C). split; [exact A|]. split; [exact B|]. apply objs_log, C. Qed.

Definition all_drops (t : vty) (vs : list vval) : list (list cell) := concat (map (vdrops t) vs).

Lemma drop_elems_loop_ok w t it vs n :
  wf_ty t -> iter_at w t it vs -> (length vs < n)%nat ->
  drop_elems_loop t n it w = Ok tt (add_log w (map EDrop (all_drops t vs))).
Proof.
  intros Hwf. revert w it n; induction vs as [|v vs IH]; intros w it n Ha Hn; (destruct n as [|n]; [cbn in Hn; lia|]); cbn [drop_elems_loop].
  - step (iter_next_nil w t it Ha). cbn [fst]. unfold ret. cbn. now rewrite add_log_nil.
  - destruct (iter_next_cons w t it v vs Hwf Ha) as (it' & E & Ha' & Eit). step E. cbn [fst snd].
    assert (Ho : obj_at w t (it_ptr it) v) by apply Ha.
    step (owned_drop_ok t w _ v Hwf Ho).
    rewrite (IH _ it' n (iter_log _ _ _ _ _ Ha') ltac:(cbn in Hn; lia)).
    rewrite add_log_app. unfold all_drops. cbn [map concat]. now rewrite map_app.
Qed.
Lemma all_drops_none t vs : wf_ty t -> needs_vdrop t = false -> Forall (vok t) vs -> all_drops t vs = [].
Proof.
  intros Hwf Hn H. induction H as [|v vs Hv Hvs IH]; [reflexivity|]. unfold all_drops in *. cbn [map concat].
  rewrite IH, (proj1 no_vdrop_all t v Hv Hn). reflexivity.
Qed.
Lemma objs_vok w t base vs : objs_at w t base vs -> Forall (vok t) vs.
Proof. revert base; induction vs as [|v vs IH]; intros base H; constructor; [apply H|]. eapply IH, H. Qed.
Lemma owned_elems_drop_ok w t it vs :
  wf_ty t -> iter_at w t it vs -> owned_elems_drop t it w = Ok tt (add_log w (map EDrop (all_drops t vs))).
Proof.
  intros Hwf Ha. unfold owned_elems_drop. destruct (core_needs_drop t || needs_vdrop t) eqn:E.
  - apply drop_elems_loop_ok; auto. rewrite (proj1 Ha). unfold len. lia.
  - apply orb_false_iff in E. destruct E as [_ E]. destruct Ha as (_ & _ & Ho).
    rewrite (all_drops_none t vs Hwf E (objs_vok _ _ _ _ Ho)). unfold ret. cbn. now rewrite add_log_nil.
Qed.

(** ** take_elems *)
Definition same_world (w w' : world) : Prop :=
  (forall x, w_mem w' x = w_mem w x) /\ w_blocks w' = w_blocks w /\ w_alloc w' = w_alloc w /\
  w_tick w' = w_tick w /\ w_log w' = w_log w.
Lemma obj_same w w' t a v : wf_ty t -> same_world w w' -> obj_at w t a v -> obj_at w' t a v.
Proof.
  intros Hwf (H1 & H2 & _) (Hv & Hp & Hr). split; [exact Hv|]. split; [rewrite H2; exact Hp|].
  apply (repr_shift t (w_mem w) _ a a v); auto.
Qed.
Lemma objs_same w w' t base vs : wf_ty t -> same_world w w' -> objs_at w t base vs -> objs_at w' t base vs.
Proof.
  intros Hwf Hs. revert base; induction vs as [|v vs IH]; intros base H; [exact I|]. destruct H; split; [eapply obj_same; eauto|auto].
Qed.
Lemma objs_range w w' t base vs :
  wf_ty t -> (forall x, base <= x < base + total t vs * sp_align t -> w_mem w' x = w_mem w x) ->
  (forall a n, base <= a -> a + n <= base + total t vs * sp_align t -> live (w_blocks w) a n -> live (w_blocks w') a n) ->
  objs_at w t base vs -> objs_at w' t base vs.
Proof.
  intros Hwf. revert base; induction vs as [|v vs IH]; intros base Hm Hl H; [exact I|]. destruct H as [(Hv & (P0 & Pm & PW & Pl) & Hr) H2].
  cbn [total] in Hm, Hl. pose proof (cells_ge t v Hwf) as Hc. split.
  - split; [exact Hv|]. split; [repeat split; auto; apply Hl; auto; lia|]. apply (repr_shift t (w_mem w) _ base base v); auto. intros j Hj. apply Hm. lia.
  - apply IH; auto; intros; [apply Hm|apply Hl]; auto; lia.
Qed.
Lemma clear_bitmasks_0 w t chk s vs :
  wf_ty t -> wf_blocks (w_blocks w) -> seq_at w t chk s vs ->
  exists w', clear_bitmasks chk (s_ptr s) (s_cap s) 0 (valign t) w = Ok tt w' /\ same_world w w'.
Proof.
  intros Hwf Hbl Hat. unfold clear_bitmasks. destruct chk; [|exists w; split; [reflexivity|repeat split; auto]].
  pose proof (seq_cap_bound _ _ _ _ _ Hwf Hat) as Hcb. rewrite ISIZE_eq in Hcb.
  unfold padd, pmul. rewrite (valign_sp t Hwf). rewrite W_eq.
  destruct (N.ltb_spec (0 + 7) 18446744073709551616); [|lia].
  destruct (N.ltb_spec (s_cap s * sp_align t) 18446744073709551616); [|lia].
  unfold bind at 1, ret at 1. unfold bind at 1, ret at 1. change ((0 + 7) / 8) with 0.
  rewrite (fill_zero_ok w (s_ptr s + s_cap s * sp_align t) 0).
  - eexists. split; [reflexivity|]. split; [|repeat split; auto]. intros x. cbn. apply fill_out. lia.
  - destruct Hat as (_ & _ & _ & [[E _]|(B1 & B2 & _)]); [lia|]. pose proof (wf_block_in _ _ Hbl B2) as Hq. cbn in Hq. lia.
  - left. reflexivity.
Qed.
Lemma take_elems_ok w t chk s vs :
  wf_ty t -> wf_blocks (w_blocks w) -> seq_at w t chk s vs ->
  exists w' it, take_elems t chk (w, s) = Ok it (w', mkS (s_ptr s) 0 0 (s_cap s)) /\ same_world w w' /\
    iter_at w' t it vs /\ it = seq_iter s /\ seq_at w' t chk (mkS (s_ptr s) 0 0 (s_cap s)) [].
Proof.
  intros Hwf Hbl Hat. destruct (clear_bitmasks_0 w t chk s vs Hwf Hbl Hat) as (w' & E & Hs).
  exists w', (seq_iter s). split; [|split; [exact Hs|]].
  - unfold take_elems. unfold bind at 1, get_sq at 1. unfold bind at 1, set_sq at 1. unfold bind at 1, get_sq at 1.
    cbn [s_ptr s_cap s_occ]. rewrite (bind_ok _ _ _ _ _ (lft_ok _ _ (mkS (s_ptr s) 0 0 (s_cap s)) _ _ E)). reflexivity.
  - destruct (seq_iter_at _ _ _ _ _ Hwf Hbl Hat) as (I1 & I2 & I3).
    split; [|split; [reflexivity|]].
    + split; [exact I1|]. split; [exact I2|]. eapply objs_same; eauto.
    + destruct Hs as (H1 & H2 & _). destruct Hat as (A1 & A2 & A3 & A4).
      split; [reflexivity|]. split; [reflexivity|]. split; [cbn; lia|]. cbn [s_ptr s_cap].
      destruct A4 as [[E1 _]|(B1 & B2 & B3 & B4 & B5 & B6)]; [left; auto|right].
      rewrite H2. repeat split; auto. intros Hc j Hj. rewrite H1. auto.
Qed.

(** ** Drop for Seq *)
Definition seq_free (t : vty) (chk : bool) (s : sq) : list event :=
  if s_cap s =? 0 then [] else [EDealloc (s_ptr s) (storage_bytes t chk (s_cap s)) (sp_align t)].
Lemma extended_ok t chk w cap :
  wf_ty t -> storage_bytes t chk cap + (sp_align t - 1) <= ISIZE_MAX ->
  extended_size chk (cap * sp_align t) (sp_align t) w = Ok (storage_bytes t chk cap) w.
Proof.
  intros Hwf H. unfold extended_size. destruct chk.
  - unfold bind. rewrite add_bitmask_ok.
    + change (cap * sp_align t + bitmap_bytes cap) with (storage_bytes t true cap).
      destruct (N.leb_spec (storage_bytes t true cap + (sp_align t - 1)) ISIZE_MAX); [reflexivity|lia].
    + apply sp_align_pow2; auto.
    + unfold storage_bytes in H. lia.
  - unfold storage_bytes. rewrite N.add_0_r. reflexivity.
Qed.
Lemma seq_drop_ok w t chk s vs :
  wf_ty t -> wf_blocks (w_blocks w) -> seq_at w t chk s vs ->
  exists w' s', seq_drop t chk (w, s) = Ok tt (w', s') /\
    upd w w' 0 0 (seq_base s) (map EDrop (all_drops t vs) ++ seq_free t chk s).
Proof.
  intros Hwf Hbl Hat. unfold seq_drop. unfold bind at 1, get_sq at 1. unfold seq_base, seq_free.
  destruct (N.eqb_spec (s_cap s) 0) as [E|E].
  - exists w, s. split; [reflexivity|]. destruct Hat as (_ & _ & _ & [[_ ->]|(B1 & _)]); [|lia]. cbn. repeat split; auto; [now rewrite without_nil|now rewrite app_nil_r].
  - destruct (take_elems_ok w t chk s vs Hwf Hbl Hat) as (w1 & it & E1 & Hs & Hit & _ & Hat1).
    rewrite (bind_ok _ _ _ _ _ E1). set (s1 := mkS (s_ptr s) 0 0 (s_cap s)) in *.
    rewrite (bind_ok _ _ _ _ _ (lft_ok _ _ s1 _ _ (owned_elems_drop_ok w1 t it vs Hwf Hit))).
    unfold bind at 1, get_sq at 1. set (w2 := add_log w1 _).
    destruct Hat as (_ & _ & _ & [[E2 _]|(B1 & B2 & B3 & B4 & B5 & B6)]); [lia|].
    assert (HcW : s_cap s * sp_align t < W) by (unfold storage_bytes in B3; rewrite ISIZE_eq in B3; rewrite W_eq; lia).
    unfold pmul. cbn [s1 s_cap s_ptr]. rewrite (valign_sp t Hwf). destruct (N.ltb_spec (s_cap s * sp_align t) W); [|lia].
    unfold bind at 1, ret at 1.
    rewrite (bind_ok _ _ _ _ _ (lft_ok _ _ s1 _ _ (extended_ok t chk w2 (s_cap s) Hwf B3))).
    destruct Hs as (H1 & H2 & H3 & H4 & H5).
    assert (Hin : In (mkB (s_ptr s) (storage_bytes t chk (s_cap s)) (sp_align t) true) (w_blocks w2)).
    { unfold w2. cbn. rewrite H2. exact B2. }
    rewrite (lft_ok _ _ s1 _ _ (dealloc_ok w2 _ _ _ Hin)).
    eexists _, s1. split; [reflexivity|]. unfold w2. repeat split; cbn [add_log set_blocks w_mem w_blocks w_alloc w_tick w_log]; auto.
    + intros x _. apply H1.
    + now rewrite H2.
    + rewrite H5, app_assoc. reflexivity.
Qed.

(** ** assignments through iter_mut *)
Lemma total_put t vs k v v' : nth_error vs k = Some v -> vshape v' = vshape v -> total t (replace_nth vs k v') = total t vs.
Proof.
  revert k; induction vs as [|x vs IH]; intros k Hk Hs; destruct k; cbn [nth_error replace_nth total] in *; try discriminate.
  - injection Hk as ->. unfold cells, vsize. now rewrite Hs.
  - now rewrite (IH k Hk Hs).
Qed.
Lemma starts_put t vs k v v' o : nth_error vs k = Some v -> vshape v' = vshape v -> starts t (replace_nth vs k v') o = starts t vs o.
Proof.
  revert k o; induction vs as [|x vs IH]; intros k o Hk Hs; destruct k; cbn [nth_error replace_nth starts] in *; try discriminate.
  - injection Hk as ->. unfold cells, vsize. now rewrite Hs.
  - now rewrite (IH k _ Hk Hs).
Qed.
Lemma len_replace {A} (l : list A) k x : len (replace_nth l k x) = len l.
Proof. unfold len. f_equal. revert k; induction l as [|y l IH]; intros k; destruct k; cbn; auto. Qed.
Lemma elems_put t m m' base vs k v v' :
  wf_ty t -> elems_at m t base vs -> nth_error vs k = Some v -> vok t v' -> vshape v' = vshape v ->
  let a := base + total t (firstn k vs) * sp_align t in
  same_outside m m' a (vsize t v) -> repr m' t a v' -> elems_at m' t base (replace_nth vs k v').
Proof.
  intros Hwf. revert base k; induction vs as [|x vs IH]; intros base k He Hk Hv Hs a Hm Hr; [destruct k; discriminate|].
  destruct He as (E1 & E2 & E3). destruct k; cbn [nth_error replace_nth elems_at firstn total] in *.
  - injection Hk as ->. subst a. replace (base + 0 * sp_align t) with base in * by lia.
    split; [exact Hv|]. split; [exact Hr|].
    assert (Ec : cells t v' = cells t v) by (unfold cells, vsize; now rewrite Hs). rewrite Ec.
    eapply elems_shift; [exact Hwf| |exact E3]. intros i Hi. apply Hm. pose proof (cells_ge t v Hwf). lia.
  - split; [exact E1|]. subst a. split.
    + eapply repr_shift; [exact Hwf|exact E1| |exact E2]. intros i Hi. apply Hm. pose proof (cells_ge t x Hwf). lia.
    + eapply IH; eauto.
      * replace (base + cells t x * sp_align t + total t (firstn k vs) * sp_align t)
          with (base + (cells t x + total t (firstn k vs)) * sp_align t) by lia. exact Hm.
      * replace (base + cells t x * sp_align t + total t (firstn k vs) * sp_align t)
          with (base + (cells t x + total t (firstn k vs)) * sp_align t) by lia. exact Hr.
Qed.
Lemma total_nth t vs k v : nth_error vs k = Some v -> total t (firstn k vs) + cells t v <= total t vs.
Proof.
  revert k; induction vs as [|x vs IH]; intros k Hk; destruct k; cbn [nth_error firstn total] in *; try discriminate.
  - injection Hk as ->. lia.
  - specialize (IH k Hk). lia.
Qed.
Lemma nth_addrs t base vs k v : nth_error vs k = Some v ->
  nth_error (addrs t base vs) k = Some (base + total t (firstn k vs) * sp_align t).
Proof.
  intros Hk. unfold addrs. rewrite nth_error_map, starts_nth; [reflexivity|]. apply nth_error_Some. congruence.
Qed.
Lemma seq_assign_ok w t chk s vs k v a p f new old :
  wf_ty t -> wf_blocks (w_blocks w) -> seq_at w t chk s vs ->
  nth_error vs k = Some v -> nth_error (addrs t (s_ptr s) vs) k = Some a ->
  mut_leaf t p = Some f -> len new = f_size f -> leaf v p = Some old ->
  exists w', assign t a p new w = Ok tt w' /\ seq_at w' t chk s (replace_nth vs k (put v p new)) /\
    w_blocks w' = w_blocks w /\ w_log w' = w_log w ++ drop_events f [old] /\
    untouched w w' (seq_base s) /\
    (forall old, chk = true -> bits_within w t s vs old -> bits_within w' t s (replace_nth vs k (put v p new)) old).
Proof.
  intros Hwf Hbl Hat Hk Ha Hm Hn Hl. rewrite (nth_addrs t (s_ptr s) vs k v Hk) in Ha. injection Ha as <-.
  destruct (seq_iter_at _ _ _ _ _ Hwf Hbl Hat) as (_ & _ & Hobjs). cbn [seq_iter it_ptr] in Hobjs.
  pose proof (objs_nth w t (s_ptr s) vs k v Hobjs Hk) as Ho. set (a := s_ptr s + total t (firstn k vs) * sp_align t) in *.
  pose proof (assign_ok t w a v p f new Hwf Ho Hm Hn) as H. rewrite Hl in H.
  destruct H as (w' & o & E & Hin & U & Hrd & Ho' & Hsh).
  pose proof (total_nth t vs k v Hk) as Htn. pose proof (cells_ge t v Hwf) as Hcg. pose proof (sp_align_pos t Hwf) as Hp.
  pose proof (upd_blocks _ _ _ _ _ _ U) as Hbk. rewrite without_nil in Hbk.
  destruct Hat as (A1 & A2 & A3 & [[_ ->]|(B1 & B2 & B3 & B4 & B5 & B6)]); [destruct k; discriminate|].
  assert (Hso : same_outside (w_mem w) (w_mem w') a (vsize t v)).
  { intros x Hx. apply (upd_mem _ _ _ _ _ _ U). lia. }
  assert (Hbm : forall j, w_mem w' (s_ptr s + s_cap s * sp_align t + j) = w_mem w (s_ptr s + s_cap s * sp_align t + j)).
  { intros j. apply Hso. unfold a. rewrite A2 in A3. nia. }
  exists w'. split; [exact E|]. split; [|split; [exact Hbk|split; [apply U|split]]].
  - split; [rewrite len_replace; exact A1|]. split; [rewrite (total_put t vs k v) by auto; exact A2|]. split; [exact A3|]. right.
    rewrite Hbk. repeat split; auto.
    + apply (elems_put t (w_mem w) (w_mem w') (s_ptr s) vs k v); auto; apply Ho'.
    + intros Hc j Hj. rewrite Hbm. auto.
  - assert (Hb : seq_base s = [s_ptr s]) by (unfold seq_base; destruct (N.eqb_spec (s_cap s) 0); [lia|reflexivity]).
    rewrite Hb. eapply (untouched_upd w w'); [exact Hbl|exact U|exact B2| | | |]; cbn [seq_block b_base b_size].
    + unfold a. lia.
    + unfold storage_bytes, a. rewrite A2 in A3. nia.
    + intros x [].
    + left. reflexivity.
  - intros old0 Hc Hb. unfold bits_within. rewrite (starts_put t vs k v) by auto. eapply bits_mem; eauto.
Qed.
