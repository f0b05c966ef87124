(** PropsZst.v - C24, C25: sequences of zero-size elements. *)
From Verif Require Export PropsSeq3.

(** Every object of the type has size 0. *)
Definition zst (t : vty) : Prop := forall v, vok t v -> vsize t v = 0.

Lemma up_0 al : 0 < al -> up 0 al = 0.
Proof. intros H. unfold up. cbn [N.add]. rewrite N.div_small by lia. reflexivity. Qed.

(** A type is either zero-sized or has no zero-size value: the two cases cover everything. *)
Lemma zst_flds_cases :
  (forall t, wf_ty t -> zst t \/ nonzst t) /\
  (forall fs, wf_flds fs -> forall cs,
     (forall vs, vok_flds fs vs cs -> sp_end fs (map vshape vs) 0 = 0) \/
     (forall vs, vok_flds fs vs cs -> 0 < sp_end fs (map vshape vs) 0)).
Proof.
  apply vty_flds_ind.
  - intros f _. destruct (N.eq_dec (f_size f) 0) as [E|E]; [left|right]; intros v Hv; destruct v; cbn [vok vsize vshape sp_size] in *; try contradiction; unfold vsize; cbn [vshape sp_size]; lia.
  - intros f k Hf. right. intros v Hv. destruct v as [|xs| |]; cbn [vok] in Hv; try contradiction. unfold vsize. cbn [vshape sp_size].
    assert (len_size k <= up (len_size k) (f_align f)) by (apply up_ge; destruct Hf as [(j & _ & ->) _]; apply N.neq_0_lt_0, N.pow_nonzero; discriminate).
    assert (0 < len_size k) by (destruct k; cbn; lia). lia.
  - intros t IH Hwf. destruct (IH Hwf) as [H|H]; [left|right]; intros v Hv; destruct v; cbn [vok] in Hv; try contradiction; apply (H v Hv).
  - intros kd hs ha fs IH (Hh & Hf & _).
    destruct (N.eq_dec hs 0) as [->|E].
    + assert (Hc : forall gs, (forall off f, In (off, f) (head_fields gs) -> f_size f = 0) -> forall vs cs, vok_flds gs vs cs ->
        vctrls gs vs = map (fun _ => []) (ctrl_types gs)).
      { induction gs as [|off f r IHr|off f r IHr|t r IHr|f lf r IHr]; intros Hs vs cs Hv; destruct vs as [|v vs]; cbn [vok_flds] in Hv; try contradiction; cbn [vctrls ctrl_types map head_fields] in *.
        - reflexivity.
        - destruct v; try contradiction. eapply IHr; [intros o g Hin; eapply Hs; right; exact Hin|apply Hv].
        - destruct v as [bs| | |]; try contradiction. f_equal; [|eapply IHr; [intros o g Hin; eapply Hs; right; exact Hin|apply Hv]].
          pose proof (Hs off f (or_introl eq_refl)). destruct Hv as [Hv _]. destruct bs; [reflexivity|rewrite len_cons in Hv; lia].
        - eapply IHr; [exact Hs|apply Hv].
        - destruct v; try contradiction. eapply IHr; [exact Hs|apply Hv]. }
      assert (Hs : forall off f, In (off, f) (head_fields fs) -> f_size f = 0).
      { intros off f Hin. destruct Hh as (_ & _ & _ & Hh & _). destruct (Hh off f Hin) as (_ & Hx & _). lia. }
      destruct (IH Hf (map (fun _ => []) (ctrl_types fs))) as [H|H]; [left|right]; intros v Hv; destruct v as [| | |vs]; cbn [vok] in Hv; try contradiction;
        unfold vsize; cbn [vshape sp_size]; apply H; rewrite <- (Hc fs Hs vs _ Hv); exact Hv.
    + right. intros v Hv. destruct v as [| | |vs]; cbn [vok] in Hv; try contradiction. unfold vsize; cbn [vshape sp_size].
      pose proof (sp_end_ge fs Hf (map vshape vs) hs). lia.
  - intros _ cs. left. intros vs _. destruct vs; reflexivity.
  - intros off f r IH (_ & Hf) cs. destruct (IH Hf cs) as [H|H]; [left|right]; intros vs Hv; destruct vs as [|v vs]; cbn [vok_flds] in Hv; try contradiction; destruct v; try contradiction; cbn [map sp_end]; apply H, Hv.
  - intros off f r IH (_ & Hf) cs. destruct (IH Hf cs) as [H|H]; [left|right]; intros vs Hv; destruct vs as [|v vs]; cbn [vok_flds] in Hv; try contradiction; destruct v; try contradiction; cbn [map sp_end]; apply H, Hv.
  - intros t IHt r IH (Ht & Hf) cs. destruct (IHt Ht) as [Z|Z].
    + destruct (IH Hf cs) as [H|H]; [left|right]; intros vs Hv; destruct vs as [|v vs]; cbn [vok_flds] in Hv; try contradiction; cbn [map sp_end];
        destruct Hv as [Hv1 Hv2]; pose proof (Z v Hv1) as E; unfold vsize in E; rewrite E, up_0 by (apply sp_align_pos; auto); apply H, Hv2.
    + right. intros vs Hv. destruct vs as [|v vs]; cbn [vok_flds] in Hv; try contradiction. destruct Hv as [Hv1 _]. pose proof (Z v Hv1) as E. unfold vsize in E.
      cbn [map sp_end]. pose proof (sp_end_ge r Hf (map vshape vs) (up 0 (sp_align t) + sp_size t (vshape v))). lia.
  - intros f lf r IH (Hfo & Hf) cs. destruct (N.eq_dec (lf cs * f_size f) 0) as [Z|Z].
    + destruct (IH Hf cs) as [H|H]; [left|right]; intros vs Hv; destruct vs as [|v vs]; cbn [vok_flds] in Hv; try contradiction; destruct v; try contradiction;
        cbn [map sp_end vshape]; destruct Hv as (_ & [El _] & Hv2); rewrite El, Z, up_0 by (destruct Hfo as [(j & _ & ->) _]; apply N.neq_0_lt_0, N.pow_nonzero; discriminate); apply H, Hv2.
    + right. intros vs Hv. destruct vs as [|v vs]; cbn [vok_flds] in Hv; try contradiction; destruct v; try contradiction. destruct Hv as (_ & [El _] & Hv2).
      cbn [map sp_end vshape]. rewrite El. pose proof (sp_end_ge r Hf (map vshape vs) (up 0 (f_align f) + lf cs * f_size f)). lia.
Qed.

Lemma zst_or_nonzst t : wf_ty t -> zst t \/ nonzst t.
Proof. apply zst_flds_cases. Qed.

(** ** The state of an unchecked sequence of zero-size elements *)
Definition zat (t : vty) (s : sq) (vs : list vval) : Prop :=
  s_ptr s = head_align t /\ s_cap s = 0 /\ s_occ s = 0 /\ s_len s = len vs /\ s_len s < W /\
  Forall (fun v => vok t v /\ forall m a, repr m t a v) vs.
Lemma zst_repr t m a v : wf_ty t -> zst t -> vok t v -> repr m t a v -> forall m' a', repr m' t a' v.
Proof. intros Hwf Hz Hv Hr m' a'. apply (repr_shift t m m' a a' v Hwf Hv); [|exact Hr]. rewrite (Hz v Hv). lia. Qed.
Lemma zst_cells t v : wf_ty t -> zst t -> vok t v -> cells t v = 0.
Proof. intros Hwf Hz Hv. unfold cells. rewrite (Hz v Hv). pose proof (sp_align_pos t Hwf). apply N.div_small. lia. Qed.
Lemma zst_total t vs : wf_ty t -> zst t -> Forall (vok t) vs -> total t vs = 0.
Proof. intros Hwf Hz H. induction H as [|v vs Hv _ IH]; cbn [total]; [reflexivity|]. now rewrite (zst_cells t v Hwf Hz Hv), IH. Qed.
Lemma zst_isize t i : zst t -> iwt t i -> ilens t i = true -> isize t i = 0.
Proof. intros Hz Hi Hl. destruct (proj1 iwt_value t i Hi Hl) as (v & Hv & E). unfold isize. rewrite <- E. apply Hz, Hv. Qed.
Lemma zat_vok t s vs : zat t s vs -> Forall (vok t) vs.
Proof. intros (_ & _ & _ & _ & _ & H). eapply Forall_impl; [|exact H]. intros v [Hv _]. exact Hv. Qed.
Lemma dangling_ok bl t n : wf_ty t -> head_align t = sp_align t -> n = 0 -> place_ok bl t (head_align t) n.
Proof.
  intros Hwf Ha ->. pose proof (sp_align_pow2 t Hwf) as Hp. pose proof (pow2_le _ Hp) as Hle. pose proof (sp_align_pos t Hwf). rewrite Ha.
  repeat split; [lia| | |left; reflexivity].
  - apply N.mod_same. lia.
  - rewrite W_eq. change (2 ^ 29) with 536870912 in Hle. lia.
Qed.
Lemma zat_obj w t s vs k v : wf_ty t -> zst t -> head_align t = sp_align t -> zat t s vs -> nth_error vs k = Some v ->
  obj_at w t (head_align t) v.
Proof.
  intros Hwf Hz Ha (_ & _ & _ & _ & _ & H) Hk. rewrite Forall_forall in H. destruct (H v (nth_error_In _ _ Hk)) as [Hv Hr].
  split; [exact Hv|]. split; [apply dangling_ok; auto|apply Hr].
Qed.
Lemma zat_iter w t s vs : wf_ty t -> zst t -> head_align t = sp_align t -> zat t s vs -> iter_at w t (seq_iter s) vs.
Proof.
  intros Hwf Hz Ha H. pose proof (zat_vok _ _ _ H) as Hv. pose proof H as (E1 & E2 & E3 & E4 & E5 & E6). split; [exact E4|]. cbn [seq_iter it_ptr]. rewrite E1.
  rewrite (zst_total t vs Hwf Hz Hv). destruct (dangling_ok (w_blocks w) t 0 Hwf Ha eq_refl) as (_ & _ & X & _). split; [lia|].
  clear -Hwf Hz Ha E6. induction E6 as [|v vs [Hv Hr] _ IH]; [exact I|]. split.
  - split; [exact Hv|]. split; [apply dangling_ok; auto|apply Hr].
  - rewrite (zst_cells t v Hwf Hz Hv). rewrite N.mul_0_l, N.add_0_r. exact IH.
Qed.
Lemma zat_addrs t s vs : wf_ty t -> zst t -> zat t s vs -> addrs t (s_ptr s) vs = map (fun _ => head_align t) vs.
Proof.
  intros Hwf Hz H. pose proof (zat_vok _ _ _ H) as Hv. destruct H as (E1 & _). unfold addrs. rewrite E1.
  clear -Hwf Hz Hv. assert (X : starts t vs 0 = map (fun _ => 0) vs).
  { induction Hv as [|v vs Hv _ IH]; cbn [starts map]; [reflexivity|]. now rewrite (zst_cells t v Hwf Hz Hv), N.add_0_l, IH. }
  rewrite X, map_map. apply map_ext. intros _. lia.
Qed.

(** What an unchecked push of a zero-size element does. *)
Lemma zpush t w s i vs :
  wf_ty t -> zst t -> head_align t = sp_align t -> zat t s vs -> push_ready w t false s i ->
  if ilens t i then
  match ival t i with
  | Some v => exists w', upd w w' (head_align t) 0 (ibases t i) (fst (irun t i)) /\ (forall m a, repr m t a v) /\
      seq_push t false i (w, s) = (if s_len s + 1 <? W then Ok tt (w', mkS (s_ptr s) (s_len s + 1) 0 0) else UB UArith)
  | None => exists w', upd w w' (head_align t) 0 (ibases t i) (fst (irun t i)) /\ seq_push t false i (w, s) = Panic (w', s)
  end
  else exists w', upd w w' 0 0 (ibases t i) (idrop t i) /\ seq_push t false i (w, s) = Panic (w', s).
Proof.
  intros Hwf Hz Ha (E1 & E2 & E3 & E4 & E5 & E6) Hr. pose proof Hr as (Hi & _). destruct (ilens t i) eqn:Hzl.
  2:{ destruct (usable_drop t w i Hwf (ready_usable _ _ _ _ _ Hwf Hr)) as (w' & Ed & U). exists w'. split; [exact U|].
      unfold seq_push. destruct (init_layout_bad t w i _ _ Hwf Hr Hzl) as [El|El].
      - rewrite (bind_ok _ _ _ _ _ (lft_ok _ _ s _ _ (on_unwind_ok _ (drop_init t i) _ _ _ El))).
        now rewrite (bind_ok _ _ _ _ _ (lft_ok _ _ s _ _ Ed)).
      - apply bind_panic, lft_panic. eapply on_unwind_panic; eauto. }
  pose proof (zst_isize t i Hz Hi Hzl) as Hs. pose proof (sp_align_pos t Hwf) as Hp. pose proof (pow2_le _ (sp_align_pow2 t Hwf)) as Hle. change (2 ^ 29) with 536870912 in Hle.
  assert (Hr0 : init_ready w t i (head_align t) (isize t i)).
  { unfold push_ready in Hr. rewrite seq_bytes_0, E1 in Hr by exact E2. now rewrite Hs. }
  assert (Hpl : place_ok (without (w_blocks w) (ibases t i)) t (head_align t) (isize t i)) by (apply dangling_ok; auto).
  pose proof (initialize_ok t w i (head_align t) Hwf Hr0 Hpl Hzl) as HB. unfold build_res in HB. rewrite (proj1 irun_ival t i), Hs in HB.
  assert (Epush : seq_push t false i (w, s) =
    (lft (initialize t i (head_align t) (sp_lay t (ishape t i))) ;;; n <- padd (s_len s) 1 ;; set_sq (mkS (s_ptr s) n 0 0)) (w, s)).
  { unfold seq_push. pose proof (init_layout_ok t w i _ _ Hwf Hr0 Hzl) as El. rewrite (bind_ok _ _ _ _ _ (lft_ok _ _ s _ _ (on_unwind_ok _ (drop_init t i) _ _ _ El))).
    rewrite Hs. change (0 <? W) with true. cbv iota. rewrite (lay_size_ishape t i Hi), Hs, (valign_sp t Hwf). unfold checked_add at 1.
    rewrite W_eq. destruct (N.ltb_spec (0 + (sp_align t - 1)) 18446744073709551616); [|lia].
    unfold bind at 1, get_sq at 1. rewrite N.add_0_l, (N.div_small (sp_align t - 1)) by lia. rewrite E3. unfold checked_add. rewrite W_eq.
    destruct (N.ltb_spec (0 + 0) 18446744073709551616); [|lia]. rewrite E2. change (0 <? 0 + 0) with false. cbv iota.
    unfold bind at 1, ret at 1. unfold bind at 1, get_sq at 1. unfold mark_offset_valid. cbv iota.
    unfold bind at 1, lft at 1, ret at 1. rewrite E3. unfold bind at 1, pmul at 1. rewrite N.mul_0_l. change (0 <? W) with true. cbv iota. unfold ret at 1.
    assert (Ew : wrapping_add (s_ptr s) 0 = head_align t).
    { unfold wrapping_add. rewrite E1, N.add_0_r, W_eq, N.mod_small by lia. reflexivity. }
    rewrite Ew. rewrite E2. reflexivity. }
  rewrite Epush. clear Epush. destruct (ival t i) as [v|] eqn:Ev.
  - destruct HB as (w' & EB & U & Rr). exists w'. split; [exact U|]. split.
    + intros m a. apply (zst_repr t (w_mem w') (head_align t) v Hwf Hz); [|exact Rr]. apply (proj1 (proj1 ival_ok_all t Hwf i v Hi Ev) Hzl).
    + rewrite (bind_ok _ _ _ _ _ (lft_ok _ _ s _ _ EB)). unfold bind, padd. destruct (s_len s + 1 <? W); reflexivity.
  - destruct HB as (w' & EB & U). exists w'. split; [exact U|]. now rewrite (bind_panic _ _ _ _ (lft_panic _ _ s _ EB)).
Qed.

Lemma in_replace {A} (l : list A) k x y : In y (replace_nth l k x) -> y = x \/ In y l.
Proof.
  revert k; induction l as [|z l IH]; intros [|k] H; cbn in *; auto; destruct H as [H|H]; auto.
  destruct (IH k H); auto.
Qed.
Lemma zat_intro t s vs : s_ptr s = head_align t -> s_cap s = 0 -> s_occ s = 0 -> s_len s = len vs -> s_len s < W ->
  Forall (fun v => vok t v /\ forall m a, repr m t a v) vs -> zat t s vs.
Proof. unfold zat. tauto. Qed.
Lemma zhist t w s vs old : wf_ty t -> zst t -> head_align t = sp_align t -> shist t false w s vs old -> zat t s vs.
Proof.
  intros Hwf Hz Hal. induction 1 as [w Hbl|w s vs old i v w' s' H IH Hr E Ev|w s vs old i w' s' H IH Hr E
    |w s vs old k v a p f new w' H IH Hk Ha Hm Hn E|w s vs old k us a hs ha fs dp news r w' H IH Hk Ha Et Hn E
    |w s vs old it w1 s' w2 H IH E Hbl2 Hb|w s vs old w' H IH Hbl' Hb].
  - apply zat_intro; try reflexivity. constructor.
  - pose proof (zpush t w s i vs Hwf Hz Hal IH Hr) as HP. rewrite Ev in HP.
    destruct (ilens t i) eqn:Hzl; [|destruct HP as (w1 & _ & EP); rewrite E in EP; discriminate].
    destruct HP as (w1 & _ & Hrep & EP). rewrite E in EP.
    destruct (N.ltb_spec (s_len s + 1) W) as [Hl|]; [|discriminate]. injection EP as _ ->. destruct IH as (E1 & E2 & E3 & E4 & E5 & E6).
    apply zat_intro; auto; cbn [s_len]; [rewrite len_app, E4; unfold len; cbn; lia|]. apply Forall_app. split; [exact E6|]. constructor; [|constructor].
    split; [|exact Hrep]. apply (proj1 (proj1 ival_ok_all t Hwf i v (proj1 Hr) Ev) Hzl).
  - pose proof (zpush t w s i vs Hwf Hz Hal IH Hr) as HP.
    destruct (ilens t i); [|destruct HP as (w1 & _ & EP); rewrite E in EP; now injection EP as _ ->]. destruct (ival t i) as [v|].
    + destruct HP as (w1 & _ & _ & EP). rewrite E in EP. destruct (s_len s + 1 <? W); discriminate.
    + destruct HP as (w1 & _ & EP). rewrite E in EP. now injection EP as _ ->.
  - pose proof (zat_obj w t s vs k v Hwf Hz Hal IH Hk) as Ho. rewrite (zat_addrs t s vs Hwf Hz IH) in Ha.
    assert (a = head_align t) as ->. { rewrite (map_nth_error _ _ _ Hk) in Ha. congruence. }
    pose proof (assign_ok t w (head_align t) v p f new Hwf Ho Hm Hn) as HA. destruct (leaf v p) as [ol|]; [|rewrite E in HA; discriminate].
    destruct HA as (w1 & o & _ & _ & _ & _ & Ho' & _). destruct IH as (E1 & E2 & E3 & E4 & E5 & E6).
    apply zat_intro; auto; [rewrite len_replace; exact E4|]. rewrite Forall_forall in *. intros x Hx.
    destruct (in_replace _ _ _ _ Hx) as [-> |Hin]; [|auto]. destruct Ho' as (V & _ & R). split; [exact V|]. exact (zst_repr t _ _ _ Hwf Hz V R).
  - pose proof (zat_obj w t s vs k _ Hwf Hz Hal IH Hk) as Ho. rewrite (zat_addrs t s vs Hwf Hz IH) in Ha.
    assert (a = head_align t) as ->. { rewrite (map_nth_error _ _ _ Hk) in Ha. congruence. }
    destruct r; [|exact IH]. pose proof Hwf as Hwf'. rewrite Et in Ho, Hwf'. destruct (try_set_obj hs ha fs w _ us dp news true w' Hwf' Ho Hn ltac:(rewrite Et in E; exact E)) as (vs1 & Ho' & _ & _ & Evs & _).
    subst vs1. rewrite <- Et in Ho'. destruct IH as (E1 & E2 & E3 & E4 & E5 & E6).
    apply zat_intro; auto; [rewrite len_replace; exact E4|]. rewrite Forall_forall in *. intros x Hx.
    destruct (in_replace _ _ _ _ Hx) as [-> |Hin]; [|auto]. destruct Ho' as (V & _ & R). split; [exact V|]. exact (zst_repr t _ _ _ Hwf Hz V R).
  - destruct IH as (E1 & E2 & E3 & E4 & E5 & E6). unfold take_elems, bind, get_sq, set_sq, lft, clear_bitmasks, ret in E. injection E as _ _ <-.
    apply zat_intro; auto; reflexivity.
  - exact IH.
Qed.

(** ** C24 *)
(** A sequence of zero-size elements never allocates, and dropping it does nothing at all, whatever
    its elements are. So it is right only when no element has a destructor. *)
Theorem C24_drop_does_nothing : forall t w s vs old,
  wf_ty t -> zst t -> head_align t = sp_align t -> shist t false w s vs old ->
  seq_capacity s = 0 /\ seq_len s = len vs /\ seq_contents t s w = Ok vs w /\ seq_drop t false (w, s) = Ok tt (w, s).
Proof.
  intros t w s vs old Hwf Hz Ha H. pose proof (zhist t w s vs old Hwf Hz Ha H) as Hat. pose proof (zat_iter w t s vs Hwf Hz Ha Hat) as Hit.
  pose proof Hat as (E1 & E2 & E3 & E4 & E5 & E6). split; [exact E2|]. split; [exact E4|]. split.
  - unfold seq_contents. step (iter_collect_ok w t (seq_iter s) vs (S (N.to_nat (s_len s))) Hwf Hit ltac:(rewrite E4; unfold len; lia)). apply mapM_view; auto. apply Hit.
  - unfold seq_drop, bind, get_sq. rewrite E2. reflexivity.
Qed.
(** A zero-size type with a destructor (struct Guard; impl Drop for Guard). *)
Definition f_guard : fty := mkF 0 1 true (fun v => Some v).
Definition t_guard : vty := TFixed f_guard.
Lemma t_guard_wf : wf_ty t_guard.
Proof. cbn. unfold fty_ok. cbn. repeat split; try (exists 0; split; [lia|reflexivity]); try (vm_compute; discriminate); intros v v' [= <-]; auto. Qed.
Lemma t_guard_zst : zst t_guard.
Proof. intros v Hv. destruct v; cbn in Hv; try contradiction. reflexivity. Qed.
Lemma push_guard w s chk : push_ready w t_guard chk s (IFixed []).
Proof. repeat split. constructor. Qed.
Lemma guards : exists w s, shist t_guard false w s [VFix []; VFix []] [] /\ w_log w = [].
Proof.
  assert (H0 : shist t_guard false w_start (seq_new t_guard) [] []) by (apply S_new; split; [intros b []|constructor]).
  assert (E1 : exists w1 s1, seq_push t_guard false (IFixed []) (w_start, seq_new t_guard) = Ok tt (w1, s1) /\ w_log w1 = [] /\
    exists w2 s2, seq_push t_guard false (IFixed []) (w1, s1) = Ok tt (w2, s2) /\ w_log w2 = []).
  { eexists _, _. split; [vm_compute; reflexivity|]. split; [reflexivity|]. eexists _, _. split; [vm_compute; reflexivity|reflexivity]. }
  destruct E1 as (w1 & s1 & E1 & L1 & w2 & s2 & E2 & L2). exists w2, s2. split; [|exact L2].
  pose proof (S_push t_guard false _ _ _ _ (IFixed []) (VFix []) w1 s1 H0 (push_guard _ _ _) E1 eq_refl) as H1.
  refine (S_push t_guard false _ _ _ _ (IFixed []) (VFix []) w2 s2 H1 (push_guard _ _ _) E2 eq_refl).
Qed.
(** Two guards are in the sequence; dropping it runs no destructor. *)
Theorem C24_zst_drop_refuted : exists t w s vs,
  wf_ty t /\ zst t /\ shist t false w s vs [] /\ seq_contents t s w = Ok vs w /\
  length (concat (map (vdrops t) vs)) = 2%nat /\
  exists w' s', seq_drop t false (w, s) = Ok tt (w', s') /\ w_log w' = w_log w.
Proof.
  destruct guards as (w & s & H & _). exists t_guard, w, s, [VFix []; VFix []].
  destruct (C24_drop_does_nothing t_guard w s _ [] t_guard_wf t_guard_zst eq_refl H) as (_ & _ & E1 & E2).
  split; [exact t_guard_wf|]. split; [exact t_guard_zst|]. split; [exact H|]. split; [exact E1|]. split; [reflexivity|].
  exists w, s. split; [exact E2|reflexivity].
Qed.
(** A zero-size tuple whose components need an alignment above 1: the dangling pointer of the empty
    sequence has the alignment of the Rust type (1), so the first push builds a misaligned object. *)
Definition t_ztup : vty := TRec KTuple 0 1 (FVar (TFixed (mkF 0 8 false (fun v => Some v))) FNil).
Theorem C24_zst_misaligned_refuted : exists t i,
  wf_ty t /\ zst t /\ push_ready w_start t false (seq_new t) i /\
  seq_push t false i (w_start, seq_new t) = UB UAlign.
Proof.
  exists t_ztup, (IRec [IFixed []]). split.
  { cbn. unfold header_ok, fty_ok. cbn. repeat split; try (exists 0; split; [lia|reflexivity]); try (exists 3; split; [lia|reflexivity]); try (vm_compute; discriminate); try contradiction; try constructor; try discriminate.
    intros v v' [= <-]; auto. }
  split.
  { intros v Hv. destruct v as [| | |[|[] [|]]]; cbn in Hv; try contradiction; try tauto; reflexivity. }
  split; [repeat split; constructor|]. vm_compute. reflexivity.
Qed.
(** What does hold: the elements are all there, and taking them out and dropping them runs every
    destructor exactly once, in order. So dropping the sequence is right exactly when no element has
    a destructor. *)
Theorem C24_zst_partial : forall t w s vs old,
  wf_ty t -> zst t -> head_align t = sp_align t -> shist t false w s vs old ->
  (exists s', take_elems t false (w, s) = Ok (seq_iter s) (w, s') /\ seq_len s' = 0) /\
  owned_elems_drop t (seq_iter s) w = Ok tt (add_log w (map EDrop (concat (map (vdrops t) vs)))) /\
  (concat (map (vdrops t) vs) = [] ->
     exists w' s', seq_drop t false (w, s) = Ok tt (w', s') /\ w_log w' = w_log w ++ map EDrop (concat (map (vdrops t) vs))).
Proof.
  intros t w s vs old Hwf Hz Ha H. pose proof (zhist t w s vs old Hwf Hz Ha H) as Hat. pose proof (zat_iter w t s vs Hwf Hz Ha Hat) as Hit.
  split; [exists (mkS (s_ptr s) 0 0 (s_cap s)); split; reflexivity|]. split; [apply (owned_elems_drop_ok w t (seq_iter s) vs Hwf Hit)|].
  intros E. exists w, s. split; [apply (C24_drop_does_nothing t w s vs old Hwf Hz Ha H)|]. rewrite E. cbn. now rewrite app_nil_r.
Qed.
Example C24_meets : exists w s, shist t_guard false w s [VFix []; VFix []] [] /\ head_align t_guard = sp_align t_guard.
Proof. destruct guards as (w & s & H & _). exists w, s. split; [exact H|reflexivity]. Qed.

(** ** C25 *)
(** Every checked push of a zero-size element onto an empty sequence reads and writes the validity
    bitmap through the dangling pointer, which belongs to no allocation: undefined behaviour, for
    every zero-size type. *)
Theorem C25_zst_checked_push_refuted : forall t w i,
  wf_ty t -> zst t -> push_ready w t true (seq_new t) i -> ilens t i = true ->
  ~ live (w_blocks w) (head_align t) 1 ->
  seq_push t true i (w, seq_new t) = UB UOob.
Proof.
  intros t w i Hwf Hz Hr Hzl Hl. pose proof Hr as (Hi & _). pose proof (zst_isize t i Hz Hi Hzl) as Hs.
  pose proof (sp_align_pos t Hwf) as Hp. pose proof (pow2_le _ (sp_align_pow2 t Hwf)) as Hle. change (2 ^ 29) with 536870912 in Hle.
  pose proof (head_align_le t Hwf) as Hhl. pose proof (pow2_pos _ (head_align_pow2 t Hwf)) as Hh0.
  unfold seq_push. pose proof (init_layout_ok t w i _ _ Hwf Hr Hzl) as El. rewrite (bind_ok _ _ _ _ _ (lft_ok _ _ (seq_new t) _ _ (on_unwind_ok _ (drop_init t i) _ _ _ El))).
  rewrite Hs. change (0 <? W) with true. cbv iota. rewrite (lay_size_ishape t i Hi), Hs, (valign_sp t Hwf). unfold checked_add at 1.
  rewrite W_eq. destruct (N.ltb_spec (0 + (sp_align t - 1)) 18446744073709551616); [|lia].
  unfold bind at 1, get_sq at 1. rewrite N.add_0_l, (N.div_small (sp_align t - 1)) by lia. cbn [seq_new s_occ s_cap s_ptr].
  change (checked_add 0 0) with (Some 0). cbv iota. change (0 <? 0) with false. cbv iota.
  unfold bind at 1, ret at 1. unfold bind at 1, get_sq at 1. cbn [seq_new s_occ s_cap s_ptr]. unfold mark_offset_valid. cbv iota.
  unfold pmul at 1. rewrite N.mul_0_l. change (0 <? W) with true. cbv iota. unfold bind at 1. unfold lft at 1. unfold bind at 1, ret at 1.
  unfold padd at 1. change (0 + 0 / 8 <? W) with true. cbv iota. unfold bind at 1, ret at 1.
  assert (Ew : wrapping_add (head_align t) (0 + 0 / 8) = head_align t).
  { unfold wrapping_add. change (0 + 0 / 8) with 0. rewrite N.add_0_r, W_eq, N.mod_small by lia. reflexivity. }
  rewrite Ew. unfold bind at 1. 
  assert (Hld : load (head_align t) 1 1 w = UB UOob).
  { unfold load, bind, check_ref. destruct (N.eqb_spec (head_align t) 0); [lia|]. rewrite N.mod_1_r, N.eqb_refl. cbn [negb].
    destruct (inb w (head_align t) 1) eqn:Ei; [|reflexivity]. exfalso. apply Hl, inb_live, Ei. }
  rewrite Hld. reflexivity.
Qed.
Example C25_meets : push_ready w_start t_guard true (seq_new t_guard) (IFixed []) /\ ilens t_guard (IFixed []) = true /\ ~ live (w_blocks w_start) (head_align t_guard) 1.
Proof. split; [apply push_guard|]. split; [reflexivity|]. intros [E|(b & [] & _)]. discriminate. Qed.
(** Exactly what a checked push of a zero-size element does, in every state such a sequence can be in
    (no capacity, so it owns no memory; the pointer is the dangling [head_align t], seq.rs:585). If the
    initializer is not accepted, nothing is accessed. Otherwise the byte at the dangling address is read
    and written: undefined behaviour if it is in no live allocation or not initialized; if it happens to
    belong to something else, its lowest bit is set there and the push goes on like an unchecked one. *)
Definition zseq (t : vty) (n : N) : sq := mkS (head_align t) n 0 0.
Lemma zst_checked_step t w i n : wf_ty t -> zst t -> push_ready w t true (zseq t n) i -> ilens t i = true ->
  seq_push t true i (w, zseq t n) =
    (lft (bs <- load (head_align t) 1 1 ;;
          match bs with [By b] => store (head_align t) 1 [By (N.lor b 1)] | _ => undef UUninit end) ;;;
     lft (initialize t i (head_align t) (sp_lay t (ishape t i))) ;;; k <- padd n 1 ;; set_sq (zseq t k)) (w, zseq t n).
Proof.
  intros Hwf Hz Hr Hzl. pose proof Hr as (Hi & _). pose proof (zst_isize t i Hz Hi Hzl) as Hs.
  pose proof (sp_align_pos t Hwf) as Hp. pose proof (pow2_le _ (sp_align_pow2 t Hwf)) as Hle. change (2 ^ 29) with 536870912 in Hle.
  pose proof (head_align_le t Hwf) as Hhl. pose proof (pow2_pos _ (head_align_pow2 t Hwf)) as Hh0.
  unfold seq_push. pose proof (init_layout_ok t w i _ _ Hwf Hr Hzl) as El. rewrite (bind_ok _ _ _ _ _ (lft_ok _ _ (zseq t n) _ _ (on_unwind_ok _ (drop_init t i) _ _ _ El))).
  rewrite Hs. change (0 <? W) with true. cbv iota. rewrite (lay_size_ishape t i Hi), Hs, (valign_sp t Hwf). unfold checked_add at 1.
  rewrite W_eq. destruct (N.ltb_spec (0 + (sp_align t - 1)) 18446744073709551616); [|lia].
  unfold bind at 1, get_sq at 1. rewrite N.add_0_l, (N.div_small (sp_align t - 1)) by lia. cbn [zseq s_occ s_cap s_ptr s_len].
  change (checked_add 0 0) with (Some 0). cbv iota. change (0 <? 0) with false. cbv iota.
  unfold bind at 1, ret at 1. unfold bind at 1, get_sq at 1. cbn [zseq s_occ s_cap s_ptr s_len]. unfold mark_offset_valid. cbv iota.
  assert (Ew : forall y, y = 0 -> wrapping_add (head_align t) y = head_align t).
  { intros y ->. unfold wrapping_add. rewrite N.add_0_r, W_eq, N.mod_small by lia. reflexivity. }
  assert (Em : (x <- pmul 0 (sp_align t) ;; y <- padd x (0 / 8) ;;
      bs <- load (wrapping_add (head_align t) y) 1 1 ;;
      match bs with [By b] => store (wrapping_add (head_align t) y) 1 [By (N.lor b (2 ^ (0 mod 8)))] | _ => undef UUninit end) w =
     (bs <- load (head_align t) 1 1 ;; match bs with [By b] => store (head_align t) 1 [By (N.lor b 1)] | _ => undef UUninit end) w).
  { unfold bind at 1, pmul at 1. rewrite N.mul_0_l. change (0 <? W) with true. cbv iota. unfold ret at 1. unfold bind at 1, padd at 1. change (0 + 0 / 8 <? W) with true. cbv iota. unfold ret at 1.
    rewrite (Ew (0 + 0 / 8)) by reflexivity. reflexivity. }
  assert (Hlb : forall (m : M world unit) (k : SM unit) s, (lft m ;;; k) (w, s) = match m w with Ok _ w1 => k (w1, s) | Panic w1 => Panic (w1, s) | UB u => UB u end).
  { intros m k s. unfold bind at 1, lft at 1. destruct (m w) as [[] w1|w1|u]; reflexivity. }
  rewrite !Hlb, Em.
  match goal with |- match ?r with _ => _ end = _ => destruct r as [[] w1|w1|u] end; try reflexivity.
  unfold bind at 1, pmul at 1. rewrite N.mul_0_l. change (0 <? W) with true. cbv iota. unfold ret at 1. rewrite (Ew 0) by reflexivity. reflexivity.
Qed.
Theorem C25_checked_push_exact : forall t w i n,
  wf_ty t -> zst t -> push_ready w t true (zseq t n) i ->
  let a := head_align t in
  (ilens t i = false -> exists w', seq_push t true i (w, zseq t n) = Panic (w', zseq t n) /\ (forall x, w_mem w' x = w_mem w x)) /\
  (ilens t i = true -> ~ live (w_blocks w) a 1 -> seq_push t true i (w, zseq t n) = UB UOob) /\
  (ilens t i = true -> live (w_blocks w) a 1 -> (forall b, w_mem w a <> By b) -> seq_push t true i (w, zseq t n) = UB UUninit) /\
  (forall b, ilens t i = true -> live (w_blocks w) a 1 -> w_mem w a = By b ->
     let w1 := set_mem w (wr (w_mem w) a [By (N.lor b 1)]) in
     push_ready w1 t false (zseq t n) i -> seq_push t true i (w, zseq t n) = seq_push t false i (w1, zseq t n)).
Proof.
  intros t w i n Hwf Hz Hr a. pose proof (pow2_pos _ (head_align_pow2 t Hwf)) as Hh0.
  assert (Hck : live (w_blocks w) a 1 -> load a 1 1 w = Ok [w_mem w a] w).
  { intros Hl. rewrite (load_ok w a 1 1); [reflexivity|unfold a; lia|apply N.mod_1_r|exact Hl]. }
  split; [|split; [|split]].
  - intros Hzl. destruct (usable_drop t w i Hwf (ready_usable _ _ _ _ _ Hwf Hr)) as (w' & Ed & U). exists w'.
    split; [|intros x; apply (upd_mem _ _ _ _ _ _ U); lia].
    unfold seq_push. destruct (init_layout_bad t w i _ _ Hwf Hr Hzl) as [El|El].
    + rewrite (bind_ok _ _ _ _ _ (lft_ok _ _ (zseq t n) _ _ (on_unwind_ok _ (drop_init t i) _ _ _ El))).
      now rewrite (bind_ok _ _ _ _ _ (lft_ok _ _ (zseq t n) _ _ Ed)).
    + apply bind_panic, lft_panic. eapply on_unwind_panic; eauto.
  - intros Hzl Hl. rewrite (zst_checked_step t w i n Hwf Hz Hr Hzl). unfold bind at 1, lft at 1. unfold bind at 1.
    assert (Hld : load (head_align t) 1 1 w = UB UOob).
    { unfold load, bind, check_ref. destruct (N.eqb_spec (head_align t) 0); [lia|]. rewrite N.mod_1_r, N.eqb_refl. cbn [negb].
      destruct (inb w (head_align t) 1) eqn:Ei; [|reflexivity]. exfalso. apply Hl, inb_live, Ei. }
    now rewrite Hld.
  - intros Hzl Hl Hb. rewrite (zst_checked_step t w i n Hwf Hz Hr Hzl). unfold bind at 1, lft at 1. unfold bind at 1.
    fold a. rewrite (Hck Hl). destruct (w_mem w a) eqn:E; try reflexivity. exfalso. eapply Hb. reflexivity.
  - intros b Hzl Hl Hb w1 Hr1. rewrite (zst_checked_step t w i n Hwf Hz Hr Hzl). unfold bind at 1, lft at 1. unfold bind at 1.
    fold a. rewrite (Hck Hl), Hb. rewrite (store_ok w a 1 [By (N.lor b 1)]); [|unfold a; lia|apply N.mod_1_r|exact Hl]. fold w1.
    pose proof Hr as (Hi & _). pose proof (zst_isize t i Hz Hi Hzl) as Hs.
    pose proof (sp_align_pos t Hwf) as Hp. pose proof (pow2_le _ (sp_align_pow2 t Hwf)) as Hle. change (2 ^ 29) with 536870912 in Hle.
    pose proof (head_align_le t Hwf) as Hhl.
    unfold seq_push. pose proof (init_layout_ok t w1 i _ _ Hwf Hr1 Hzl) as El. rewrite (bind_ok _ _ _ _ _ (lft_ok _ _ (zseq t n) _ _ (on_unwind_ok _ (drop_init t i) _ _ _ El))).
    rewrite Hs. change (0 <? W) with true. cbv iota. rewrite (lay_size_ishape t i Hi), Hs, (valign_sp t Hwf). unfold checked_add at 1.
    rewrite W_eq. destruct (N.ltb_spec (0 + (sp_align t - 1)) 18446744073709551616); [|lia].
    unfold bind at 3, get_sq at 1. rewrite N.add_0_l, (N.div_small (sp_align t - 1)) by lia. cbn [zseq s_occ s_cap s_ptr s_len].
    change (checked_add 0 0) with (Some 0). cbv iota. change (0 <? 0) with false. cbv iota.
    unfold bind at 3, ret at 1. unfold bind at 3, get_sq at 1. cbn [zseq s_occ s_cap s_ptr s_len]. unfold mark_offset_valid. cbv iota.
    unfold bind at 3, lft at 2, ret at 1. unfold bind at 3, pmul at 1. rewrite N.mul_0_l. change (0 <? W) with true. cbv iota. unfold ret at 1.
    assert (Ew : wrapping_add (head_align t) 0 = head_align t).
    { unfold wrapping_add. rewrite N.add_0_r, W_eq, N.mod_small by lia. reflexivity. }
    rewrite Ew. reflexivity.
Qed.
(** A world in which something else lies at the dangling address: its byte 6 becomes 7. *)
Definition w_low : world := mkW (fun x => if x =? 1 then By 6 else Un) [mkB 1 1 1 false] (fun _ _ _ => None) 0 [].
Example C25_exact_meets :
  head_align t_guard = 1 /\ push_ready w_low t_guard true (zseq t_guard 5) (IFixed []) /\ live (w_blocks w_low) 1 1 /\ w_mem w_low 1 = By 6 /\
  match seq_push t_guard true (IFixed []) (w_low, zseq t_guard 5) with
  | Ok _ (w', s') => w_mem w' 1 = By 7 /\ s' = zseq t_guard 6
  | _ => False
  end.
Proof.
  split; [reflexivity|]. split; [apply push_guard|]. split; [right; eexists; split; [left; reflexivity|cbn; lia]|]. split; [reflexivity|].
  vm_compute. split; reflexivity.
Qed.
(** What does hold: without the bitmap, a push of a zero-size element touches no memory at all. *)
Theorem C25_zst_push_partial : forall t w s vs old i,
  wf_ty t -> zst t -> head_align t = sp_align t -> shist t false w s vs old -> push_ready w t false s i -> seq_len s + 1 < W ->
  match seq_push t false i (w, s) with
  | Ok _ (w', s') => exists v, ival t i = Some v /\ shist t false w' s' (vs ++ [v]) old /\
      (forall x, w_mem w' x = w_mem w x) /\ w_log w' = w_log w ++ fst (irun t i)
  | Panic (w', s') => s' = s /\ (forall x, w_mem w' x = w_mem w x) /\
      ((ilens t i = true /\ ival t i = None /\ w_log w' = w_log w ++ fst (irun t i)) \/
       (ilens t i = false /\ w_log w' = w_log w ++ idrop t i))
  | UB _ => False
  end.
Proof.
  intros t w s vs old i Hwf Hz Ha H Hr Hlen. unfold seq_len in Hlen. pose proof (zhist t w s vs old Hwf Hz Ha H) as Hat.
  pose proof (zpush t w s i vs Hwf Hz Ha Hat Hr) as HP.
  destruct (ilens t i) eqn:Hzl.
  2:{ destruct HP as (w' & U & E). rewrite E. split; [reflexivity|]. split; [intros x; apply (upd_mem _ _ _ _ _ _ U); lia|].
      right. split; [reflexivity|exact (upd_log_eq _ _ _ _ _ _ U)]. }
  destruct (ival t i) as [v|] eqn:Ev.
  - destruct HP as (w' & U & _ & E). destruct (N.ltb_spec (s_len s + 1) W); [|lia]. rewrite E. exists v. split; [reflexivity|].
    split; [exact (S_push t false w s vs old i v w' _ H Hr E Ev)|]. split; [|exact (upd_log_eq _ _ _ _ _ _ U)].
    intros x. apply (upd_mem _ _ _ _ _ _ U). lia.
  - destruct HP as (w' & U & E). rewrite E. split; [reflexivity|]. split; [intros x; apply (upd_mem _ _ _ _ _ _ U); lia|].
    left. split; [reflexivity|]. split; [reflexivity|exact (upd_log_eq _ _ _ _ _ _ U)].
Qed.
(** The two cases cover every type. *)
Theorem C25_types_covered : forall t, wf_ty t -> zst t \/ nonzst t.
Proof. exact zst_or_nonzst. Qed.
