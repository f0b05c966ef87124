(** PropsExact.v - the exact frontier of the properties that do not hold in general: for each one, when
    it holds and when it does not (C12, C13, C24, C27, C28, C37, C43). *)
From Verif Require Export PropsZst.

(** C12. Moving an object through an Owned initializer into storage of its own puts the bytes of the
    object there, whatever was in that storage before, exactly when the Rust type has size one or the
    object has no bytes at all. *)
Theorem C12_owned_moves_exact : forall t w a v dst al hp,
  wf_ty t -> wf_blocks (w_blocks w) -> obj_at w t a v ->
  vsize t v = 0 \/ In (mkB dst (vsize t v) al hp) (w_blocks w) ->
  place_ok (w_blocks w) t dst (vsize t v) -> apart a (vsize t v) dst (vsize t v) ->
  (forall m, (forall x, x < dst \/ dst + vsize t v <= x -> m x = w_mem w x) ->
     exists l w', init_layout t (IOwned a v) (set_mem w m) = Ok (Some l) (set_mem w m) /\
       initialize t (IOwned a v) dst l (set_mem w m) = Ok tt w' /\
       forall k, k < vsize t v -> w_mem w' (dst + k) = w_mem w (a + k)) <->
  head_size t = 1 \/ vsize t v = 0.
Proof.
  intros t w a v dst al hp Hwf Hbl Ho Hb Hp Ha. pose proof Ho as (Hv & Hpa & Hr). pose proof (head_size_le t v Hwf Hv) as Hhs.
  assert (Hsrc : forall m, (forall x, x < dst \/ dst + vsize t v <= x -> m x = w_mem w x) ->
     (forall k, k < vsize t v -> m (a + k) = w_mem w (a + k)) /\ obj_at (set_mem w m) t a v).
  { intros m Hm. assert (E : forall k, k < vsize t v -> m (a + k) = w_mem w (a + k)).
    { intros k Hk. apply Hm. unfold apart in Ha. lia. }
    split; [exact E|]. split; [exact Hv|]. split; [exact Hpa|]. eapply repr_shift; eauto. }
  assert (El : forall m, (forall x, x < dst \/ dst + vsize t v <= x -> m x = w_mem w x) ->
     init_layout t (IOwned a v) (set_mem w m) = Ok (Some (sp_lay t (vshape v))) (set_mem w m)).
  { intros m Hm. destruct (Hsrc m Hm) as [_ Ho'].
    pose proof (calc_layout_ok t _ a v Hwf Ho') as Ec.
    destruct t; cbn [init_layout]; step Ec; reflexivity. }
  assert (Hrun : forall m, initialize t (IOwned a v) dst (sp_lay t (vshape v)) (set_mem w m) =
    copy_nonoverlapping a dst (vsize t v * head_size t) (head_align t) (set_mem w m)).
  { intros m. rewrite <- (lay_size_sp t v Hv). destruct t; reflexivity. }
  assert (Hmod : forall x, x mod sp_align t = 0 -> x mod head_align t = 0).
  { intros x Hx. eapply pow2_mod; [apply head_align_pow2, Hwf|apply sp_align_pow2, Hwf|apply head_align_le, Hwf|exact Hx]. }
  destruct Hpa as (P0 & Pm & PW & Pl). destruct Hp as (Q0 & Qm & QW & Ql).
  split.
  - intros H. destruct (N.eq_dec (vsize t v) 0) as [E0|E0]; [right; exact E0|left]. destruct Hb as [Hb|Hb]; [contradiction|].
    destruct (N.eq_dec (head_size t) 0) as [Hh|Hh].
    + exfalso. set (c := match w_mem w a with Un => By 0 | By _ => Un end).
      destruct (H (fun x => if (dst <=? x) && (x <? dst + vsize t v) then c else w_mem w x)) as (l & w' & E1 & E2 & E3).
      { intros x Hx. destruct (N.leb_spec dst x), (N.ltb_spec x (dst + vsize t v)); cbn [andb]; auto; lia. }
      rewrite El in E1 by (intros x Hx; destruct (N.leb_spec dst x), (N.ltb_spec x (dst + vsize t v)); cbn [andb]; auto; lia).
      injection E1 as <-. rewrite Hrun, Hh, N.mul_0_r in E2. rewrite copy_ok in E2; auto; try (left; reflexivity).
      injection E2 as <-. specialize (E3 0 ltac:(lia)). rewrite !N.add_0_r in E3. cbn [set_mem w_mem] in E3.
      rewrite move_out in E3 by lia. destruct (N.leb_spec dst dst), (N.ltb_spec dst (dst + vsize t v)); try lia. cbn [andb] in E3.
      unfold c in E3. destruct (w_mem w a); discriminate.
    + destruct (N.eq_dec (head_size t) 1) as [H1|H1]; [exact H1|exfalso].
      destruct (H (w_mem w) (fun _ _ => eq_refl)) as (l & w' & E1 & E2 & _). rewrite (El _ (fun _ _ => eq_refl)) in E1. injection E1 as <-.
      destruct (C12_owned_moves_refuted t (set_mem w (w_mem w)) a v dst al hp (sp_lay t (vshape v)) Hwf Hbl ltac:(lia)) as [u Eu].
      { apply (Hsrc _ (fun _ _ => eq_refl)). }
      { exact Hb. }
      { apply calc_layout_ok; auto. }
      congruence.
  - intros H m Hm. exists (sp_lay t (vshape v)). destruct (Hsrc m Hm) as [Es _].
    assert (Hn : vsize t v * head_size t = vsize t v) by (destruct H as [-> | ->]; lia).
    eexists. split; [apply El, Hm|]. split; [rewrite Hrun, Hn; apply copy_ok; auto|].
    intros k Hk. cbn [set_mem w_mem]. rewrite move_in by exact Hk. auto.
Qed.

(** C13. Owned::leak runs no destructor exactly when the object has none. *)
Theorem C13_leak_exact : forall t w a v,
  wf_ty t -> obj_at w t a v ->
  (exists w', owned_leak t a w = Ok a w' /\ w_log w' = w_log w) <-> vdrops t v = [].
Proof.
  intros t w a v Hwf Ho. destruct (C13_leak_refuted t w a v Hwf Ho) as (w1 & E1 & L1). split.
  - intros (w' & E & L). rewrite E in E1. injection E1 as ->. rewrite L in L1.
    destruct (vdrops t v); [reflexivity|exfalso]. apply (f_equal (@length event)) in L1. rewrite app_length in L1. cbn in L1. lia.
  - intros E. rewrite E in L1. cbn in L1. rewrite app_nil_r in L1. eauto.
Qed.

(** C27, C28. VBox::new has undefined behaviour exactly when the layout is fine and either the object
    has no bytes or the allocator does not answer with usable storage. *)
Theorem C27_vbox_new_exact : forall t w i,
  wf_ty t -> wf_blocks (w_blocks w) -> usable w t i ->
  (exists u, vbox_new t i w = UB u) <->
  fits t i = true /\
  (isize t i = 0 \/
   forall p, w_alloc w (w_tick w) (isize t i) (valign t) = Some p -> valid_answer (w_blocks w) p (isize t i) (valign t) = false).
Proof.
  intros t w i Hwf Hbl Hu. rewrite (valign_sp t Hwf).
  destruct (vbox_new_cases t w i Hwf Hbl Hu) as [(Hf & w1 & E1 & _)|[(Hf & E0 & E1)|[(Hf & Hs & H & E1)|(Hf & Hs & p & w1 & Ew & Hva & _ & H)]]]; split.
  - intros [u E]. congruence.
  - intros [E _]. congruence.
  - intros _. auto.
  - intros _. eauto.
  - intros _. auto.
  - intros _. eauto.
  - intros [u E]. destruct (snd (irun t i)); destruct H as (w2 & E2 & _); congruence.
  - intros [_ [E|Hall]]; [lia|exfalso].
    assert (E1 : vbox_new t i w = UB UNull).
    { destruct (alloc_cases (isize t i) (sp_align t) w Hs) as [(q & Hq & Hval & _)|[_ Ha]]; [rewrite (Hall q Hval) in Hq; discriminate|].
      unfold vbox_new. step (on_unwind_ok _ (drop_init t i) _ _ _ (init_layout_ok t w i 0 0 Hwf Hu (fits_lens _ _ Hf))). pose proof (fits_W _ _ Hf) as HW. apply N.ltb_lt in HW. rewrite HW.
      rewrite (lay_size_ishape t i (proj1 Hu)), (valign_sp t Hwf), fits_fsa by (auto; apply fits_lens, Hf). rewrite Hf. step Ha. reflexivity. }
    destruct (snd (irun t i)); destruct H as (w2 & E2 & _); congruence.
Qed.
Theorem C28_vbox_zero_size_exact : forall t w i,
  wf_ty t -> wf_blocks (w_blocks w) -> usable w t i ->
  vbox_new t i w = UB UZeroAlloc <-> fits t i = true /\ isize t i = 0.
Proof.
  intros t w i Hwf Hbl Hu. split.
  - intros E. destruct (C27_vbox_new_exact t w i Hwf Hbl Hu) as [X _]. destruct X as [Hf _]; [eauto|]. split; [exact Hf|].
    destruct (N.eq_dec (isize t i) 0) as [E0|E0]; [exact E0|exfalso]. apply (C28_vbox_partial t w i Hwf Hbl Hu); [lia|exact E].
  - intros [Hf Hs]. apply C28_vbox_zero_size_refuted; auto. apply fits_lens, Hf.
Qed.

(** C24. Dropping a sequence of zero-size elements runs the destructors of its elements exactly when
    they have none. *)
Theorem C24_drop_exact : forall t w s vs old,
  wf_ty t -> zst t -> head_align t = sp_align t -> shist t false w s vs old ->
  (exists w' s', seq_drop t false (w, s) = Ok tt (w', s') /\
     w_log w' = w_log w ++ map EDrop (concat (map (vdrops t) vs))) <->
  concat (map (vdrops t) vs) = [].
Proof.
  intros t w s vs old Hwf Hz Ha H. destruct (C24_drop_does_nothing t w s vs old Hwf Hz Ha H) as (_ & _ & _ & E). split.
  - intros (w' & s' & E' & L). rewrite E in E'. injection E' as <- <-.
    destruct (concat (map (vdrops t) vs)); [reflexivity|exfalso]. apply (f_equal (@length event)) in L. rewrite app_length in L. cbn in L. lia.
  - intros E0. exists w, s. split; [exact E|]. rewrite E0. cbn. now rewrite app_nil_r.
Qed.

(** C43. Whatever limit Layout puts on sizes, the addition overflows exactly when the size and the
    bitmap together exceed the address space. *)
Theorem C43_overflow_exact : forall lim size align w,
  0 < align -> size < 2 ^ 64 -> size mod align = 0 -> size / align + 7 < 2 ^ 64 ->
  add_bitmask_lim lim size align w = UB UArith <-> 2 ^ 64 <= size + ceil_div (size / align) 8.
Proof.
  intros lim size align w Ha Hs Hm Hq. unfold add_bitmask_lim, checked_add, padd, ceil_div. rewrite Hm, N.eqb_refl. cbn [negb].
  unfold W. change (8 - 1) with 7. destruct (N.ltb_spec (size / align + 7) (2 ^ 64)); [|lia].
  set (b := (size / align + 7) / 8). destruct (N.ltb_spec (size + b) (2 ^ 64)) as [L|L]; cbn [bind ret undef].
  - split; [|lia]. intros E. unfold bind, ret in E. destruct (from_size_align_lim lim (size + b) align); discriminate.
  - split; [intros _; exact L|reflexivity].
Qed.

(** C37. After the panic of an old controller's destructor the first k controllers are the new ones and
    the rest are the old ones, for some k; the object has the layout of its storage exactly when
    that mixture of controllers gives every array its length. *)
Lemma calc_tail_lengths fs : forall cs0 cs a0 a pos w0 w r w0' w',
  calc_tail fs cs0 a0 pos w0 = Ok r w0' -> calc_tail fs cs a pos w = Ok r w' -> same_lengths fs cs0 cs.
Proof.
  induction fs as [|off f r IH|off f r IH|t r IH|f lf r IH]; intros cs0 cs a0 a pos w0 w x w0' w' E0 E; cbn [same_lengths calc_tail] in *; eauto.
  - unfold bind in E0, E.
    destruct (check_ref (wrapping_add a0 _) _ _ w0) as [? w1|?|?] in E0; try discriminate.
    destruct (calc_layout t _ w1) as [l0 w2|?|?] in E0; try discriminate.
    destruct (calc_tail r cs0 a0 _ w2) as [q0 w3|?|?] eqn:Q0 in E0; try discriminate. injection E0 as <- <-.
    destruct (check_ref (wrapping_add a _) _ _ w) as [? v1|?|?] in E; try discriminate.
    destruct (calc_layout t _ v1) as [l v2|?|?] in E; try discriminate.
    destruct (calc_tail r cs a _ v2) as [q v3|?|?] eqn:Q in E; try discriminate. injection E as E1 E2 E3 E4. subst l.
    destruct q as [q1 q2], q0 as [p1 p2]. cbn [fst snd] in *. subst q1 q2. eapply IH; eauto.
  - unfold bind, len_call in E0, E. cbv zeta in E0, E.
    destruct (lf cs0 <? W) in E0; [|discriminate]. destruct (lf cs <? W) in E; [|discriminate]. unfold ret in E0, E. unfold cat_array_field_fast in E0, E.
    destruct (calc_tail r cs0 a0 _ w0) as [q0 w3|?|?] eqn:Q0 in E0; try discriminate. injection E0 as <- <-.
    destruct (calc_tail r cs a _ w) as [q v3|?|?] eqn:Q in E; try discriminate. injection E as E1 E2 E3 E4.
    split; [auto|]. destruct q as [q1 q2], q0 as [p1 p2]. cbn [fst snd] in *. subst q1 q2. rewrite E1 in Q. eapply IH; eauto.
Qed.
(** C37. The panic comes from the first old controller whose destructor panics; up to and including this
    one the controllers are new, the others old, and the layout is as before exactly if this mixture gives
    every array its old length. *)
Theorem C37_try_set_panic_exact : forall hs ha fs w a vs news dp w',
  let t := TRec KStruct hs ha fs in
  wf_ty t -> obj_at w t a (VRec vs) -> ctrls_ok fs news -> lengths_eval fs news ->
  try_set_layout_controllers fs a dp news w = Panic w' ->
  exists j l, let k := S j in
    (* controller j is the first whose destructor panics *)
    ctrl_panics dp (ctrl_types fs) (vctrls fs vs) j = true /\ (forall i, (i < j)%nat -> ctrl_panics dp (ctrl_types fs) (vctrls fs vs) i = false) /\
    calc_layout t a w = Ok l w /\ w_blocks w' = w_blocks w /\ (k <= length news)%nat /\
    load_ctrls fs a w' = Ok (mixed k news (vctrls fs vs)) w' /\
    (calc_layout t a w' = Ok l w' <-> same_lengths fs (vctrls fs vs) (mixed k news (vctrls fs vs))) /\
    (same_lengths fs (vctrls fs vs) (mixed k news (vctrls fs vs)) ->
       view t a w' = Ok (VRec (with_ctrls fs vs (mixed k news (vctrls fs vs)))) w').
Proof.
  intros hs ha fs w a vs news dp w' t Hwf Ho Hn Hz E.
  destruct (try_set_cases hs ha fs w a vs dp news Hwf Ho Hn) as [[X E1]|[(_ & _ & E1)|(_ & _ & w1 & k & Hk & Hr & _ & Hb & _ & _ & [(_ & E1 & _)|(_ & E1 & _ & j & Hkj & Hj1 & Hj2)])]]; rewrite E in E1; try discriminate; [contradiction|].
  injection E1 as <-. pose proof Ho as (Hv & Hp & Hrp). cbn [t vok] in Hv.
  assert (Hm : ctrls_ok fs (mixed k news (vctrls fs vs))) by (apply ctrls_ok_mixed; [exact Hn|eapply vctrls_ok; exact Hv]).
  assert (Hself : forall c, same_lengths fs c c) by (intros c; clear; induction fs; cbn; auto).
  destruct (with_ctrls_ok fs vs _ _ _ Hv Hm (Hself _)) as (D1 & D2 & D3).
  assert (Hl : load_ctrls fs a w' = Ok (mixed k news (vctrls fs vs)) w').
  { assert (Hge : hs <= sp_end fs (map vshape vs) hs) by (apply sp_end_ge, Hwf).
    destruct (rec_place KStruct hs ha fs (w_blocks w) a _ Hwf Hp Hge) as [Hfp Hh]. rewrite <- Hb in Hfp.
    assert (Hh' : hdr_in fs (sp_align t) hs).
    { destruct Hwf as ((Q1 & Q2 & Q3 & Q4 & Q5) & Q6 & Q7). intros off g Hin. destruct (Q4 off g Hin) as (A1 & A2 & A3). repeat split; auto. unfold t; cbn [sp_align]. lia. }
    pose proof (load_ctrls_ok fs w' a _ _ _ _ hs (proj1 (proj2 Hwf)) Hfp Hh D1 Hr) as X. now rewrite D3 in X. }
  assert (Hok : same_lengths fs (vctrls fs vs) (mixed k news (vctrls fs vs)) ->
     view t a w' = Ok (VRec (with_ctrls fs vs (mixed k news (vctrls fs vs)))) w' /\ calc_layout t a w' = Ok (sp_lay t (vshape (VRec vs))) w').
  { intros Hs. destruct (with_ctrls_ok fs vs _ _ _ Hv Hm Hs) as (C1 & C2 & C3).
    set (vs' := with_ctrls fs vs (mixed k news (vctrls fs vs))) in *.
    assert (Hsh : vshape (VRec vs') = vshape (VRec vs)) by (cbn [vshape]; now rewrite C2).
    assert (Ho' : obj_at w' t a (VRec vs')).
    { split; [cbn [t vok]; now rewrite C3|]. split; [unfold vsize; rewrite Hsh, Hb; exact Hp|exact Hr]. }
    split; [now apply view_ok|]. rewrite <- Hsh. now apply calc_layout_ok. }
  exists j, (sp_lay t (vshape (VRec vs))). cbv zeta. rewrite <- Hkj. split; [exact Hj1|]. split; [exact Hj2|]. split; [now apply calc_layout_ok|]. split; [exact Hb|]. split; [exact Hk|]. split; [exact Hl|].
  split; [split; [|apply Hok]|apply Hok].
  intros El. pose proof (calc_layout_ok t w a _ Hwf Ho) as E0. cbn [t calc_layout] in El, E0.
  rewrite (bind_ok _ _ _ _ _ Hl) in El. unfold bind in El, E0.
  destruct (load_ctrls fs a w) as [cs0 w0|?|?] eqn:Ec in E0; try discriminate.
  destruct (calc_tail fs cs0 a hs w0) as [r0 w0'|?|?] eqn:T0 in E0; try discriminate.
  destruct (calc_tail fs _ a hs w') as [r1 w1'|?|?] eqn:T1 in El; try discriminate.
  assert (cs0 = vctrls fs vs) as ->.
  { assert (Hge : hs <= sp_end fs (map vshape vs) hs) by (apply sp_end_ge, Hwf).
    destruct (rec_place KStruct hs ha fs (w_blocks w) a _ Hwf Hp Hge) as [Hfp Hh].
    assert (Hh' : hdr_in fs (sp_align t) hs).
    { destruct Hwf as ((Q1 & Q2 & Q3 & Q4 & Q5) & Q6 & Q7). intros off g Hin. destruct (Q4 off g Hin) as (A1 & A2 & A3). repeat split; auto. unfold t; cbn [sp_align]. lia. }
    pose proof (load_ctrls_ok fs w a _ _ vs _ hs (proj1 (proj2 Hwf)) Hfp Hh Hv Hrp) as X. congruence. }
  assert (r0 = r1) as ->.
  { destruct r0 as [p0 q0], r1 as [p1 q1]. unfold ret in El, E0. cbn [fst snd] in *.
    generalize dependent (sp_lay t (vshape (VRec vs))). intros x _ El E0. congruence. }
  eapply calc_tail_lengths; eauto.
Qed.

(** ** C19 *)
(** The offsets at which a push has begun to build an element since the sequence was created: a push
    that completes, or one whose initializer panics once there is room. Nothing ever leaves this list;
    take_elems in particular does not. *)
Inductive begun (t : vty) : world -> sq -> list vval -> list N -> Prop :=
| B_new : forall w, wf_blocks (w_blocks w) -> begun t w (seq_new t) [] []
| B_push : forall w s vs offs i v w' s',
    begun t w s vs offs -> push_ready w t true s i ->
    seq_push t true i (w, s) = Ok tt (w', s') -> ival t i = Some v ->
    begun t w' s' (vs ++ [v]) (offs ++ [seq_offset s])
| B_fail : forall w s vs offs i w' s',
    begun t w s vs offs -> push_ready w t true s i ->
    seq_push t true i (w, s) = Panic (w', s') ->
    begun t w' s' vs (if ilens t i && (seq_offset s + icells t i <=? seq_capacity s') then offs ++ [seq_offset s] else offs)
| B_assign : forall w s vs offs k v a p f new w',
    begun t w s vs offs -> nth_error vs k = Some v -> nth_error (addrs t (s_ptr s) vs) k = Some a ->
    mut_leaf t p = Some f -> len new = f_size f ->
    assign t a p new w = Ok tt w' -> begun t w' s (replace_nth vs k (put v p new)) offs
| B_controllers : forall w s vs offs k us a hs ha fs dp news r w',
    begun t w s vs offs -> nth_error vs k = Some (VRec us) -> nth_error (addrs t (s_ptr s) vs) k = Some a ->
    t = TRec KStruct hs ha fs -> ctrls_ok fs news ->
    try_set_layout_controllers fs a dp news w = Ok r w' ->
    begun t w' s (if r : bool then replace_nth vs k (VRec (with_ctrls fs us news)) else vs) offs
| B_take : forall w s vs offs it w1 s' w2,
    begun t w s vs offs -> take_elems t true (w, s) = Ok it (w1, s') ->
    wf_blocks (w_blocks w2) ->
    (forall b, In b (w_blocks w1) -> In (b_base b) (seq_base s) ->
       In b (w_blocks w2) /\
       forall x, b_base b + s_cap s * sp_align t <= x < b_base b + b_size b -> w_mem w2 x = w_mem w1 x) ->
    begun t w2 s' [] offs
| B_env : forall w s vs offs w',
    begun t w s vs offs -> wf_blocks (w_blocks w') ->
    (forall b, In b (w_blocks w) -> In (b_base b) (seq_base s) ->
       In b (w_blocks w') /\ forall x, b_base b <= x < b_base b + b_size b -> w_mem w' x = w_mem w x) ->
    begun t w' s vs offs.

(** It is the same set of histories. *)
Lemma begun_shist t w s vs offs : begun t w s vs offs -> exists old, shist t true w s vs old.
Proof.
  induction 1 as [w Hbl|w s vs offs i v w' s' H [old IH] Hr E Ev|w s vs offs i w' s' H [old IH] Hr E
    |w s vs offs k v a p f new w' H [old IH] Hk Ha Hm Hn E|w s vs offs k us a hs ha fs dp news r w' H [old IH] Hk Ha Et Hn E
    |w s vs offs it w1 s' w2 H [old IH] E Hbl2 Hb|w s vs offs w' H [old IH] Hbl' Hb].
  - eexists. now constructor.
  - eexists. eapply S_push; eauto.
  - eexists. eapply S_fail; eauto.
  - eexists. eapply S_assign; eauto.
  - eexists. eapply S_controllers; eauto.
  - eexists. eapply S_take; eauto.
  - eexists. eapply S_env; eauto.
Qed.
Lemma shist_begun t w s vs old : shist t true w s vs old -> exists offs, begun t w s vs offs.
Proof.
  induction 1 as [w Hbl|w s vs old i v w' s' H [offs IH] Hr E Ev|w s vs old i w' s' H [offs IH] Hr E
    |w s vs old k v a p f new w' H [offs IH] Hk Ha Hm Hn E|w s vs old k us a hs ha fs dp news r w' H [offs IH] Hk Ha Et Hn E
    |w s vs old it w1 s' w2 H [offs IH] E Hbl2 Hb|w s vs old w' H [offs IH] Hbl' Hb].
  - eexists. now constructor.
  - eexists. eapply B_push; eauto.
  - eexists. eapply B_fail; eauto.
  - eexists. eapply B_assign; eauto.
  - eexists. eapply B_controllers; eauto.
  - eexists. eapply B_take; eauto.
  - eexists. eapply B_env; eauto.
Qed.

Definition bits_are (w : world) (t : vty) (s : sq) (offs : list N) : Prop :=
  forall o, (In o offs <-> o < 8 * bitmap_bytes (s_cap s) /\ bit_at w t s o = true).
Lemma bits_are_mem w w' t s s' offs :
  s_ptr s' = s_ptr s -> s_cap s' = s_cap s ->
  (forall j, j < bitmap_bytes (s_cap s) -> w_mem w' (s_ptr s + s_cap s * sp_align t + j) = w_mem w (s_ptr s + s_cap s * sp_align t + j)) ->
  bits_are w t s offs -> bits_are w' t s' offs.
Proof.
  intros Ep Ec Hm H o. rewrite (H o), Ec. unfold bit_at. rewrite Ep, Ec.
  split; intros [A B]; (split; [exact A|]); [rewrite Hm|rewrite Hm in B]; auto; apply N.div_lt_upper_bound; lia.
Qed.
Lemma bits_mark w w' t s offs :
  s_occ s < s_cap s -> bits_are w t s offs ->
  (forall o, bit_at w' t s o = (bit_at w t s o || (o =? s_occ s))%bool) -> bits_are w' t s (offs ++ [s_occ s]).
Proof.
  intros Hc H Hb o. rewrite in_app_iff, (H o), Hb, orb_true_iff, N.eqb_eq. cbn [In].
  destruct (bitmap_cover (s_cap s)). split.
  - intros [[A B]|[<-|[]]]; [auto|]. split; [lia|auto].
  - intros [A [B|B]]; auto.
Qed.
Lemma bits_grown w w' t s p cap' offs :
  s_cap s <= cap' -> grown t true (s_ptr s) (s_cap s) p cap' w w' -> bits_are w t s offs -> bits_are w' t (with_store s p cap') offs.
Proof.
  intros Hc (_ & _ & _ & _ & _ & G6 & _) H o. rewrite (H o). cbn [with_store s_cap s_ptr].
  assert (Hbb : bitmap_bytes (s_cap s) <= bitmap_bytes cap') by (unfold bitmap_bytes; lia).
  unfold bit_at. cbn [with_store s_cap s_ptr]. split.
  - intros [A B]. split; [lia|]. rewrite G6 by (auto; apply N.div_lt_upper_bound; lia).
    destruct (N.ltb_spec (o / 8) (bitmap_bytes (s_cap s))) as [L|L]; [exact B|].
    assert (o / 8 < bitmap_bytes (s_cap s)) by (apply N.div_lt_upper_bound; lia). lia.
  - intros [A B]. rewrite G6 in B by (auto; apply N.div_lt_upper_bound; lia).
    destruct (N.ltb_spec (o / 8) (bitmap_bytes (s_cap s))) as [L|L]; [|rewrite N.bits_0 in B; discriminate].
    split; [|exact B]. pose proof (N.div_mod o 8 ltac:(lia)). pose proof (N.mod_lt o 8 ltac:(lia)). lia.
Qed.

Lemma bits_push t w s i vs offs :
  wf_ty t -> nonzst t -> wf_blocks (w_blocks w) -> seq_at w t true s vs -> push_ready w t true s i -> bits_are w t s offs ->
  match seq_push t true i (w, s) with
  | Ok _ (w', s') => bits_are w' t s' (offs ++ [s_occ s])
  | Panic (w', s') => bits_are w' t s' (if ilens t i && (s_occ s + icells t i <=? s_cap s') then offs ++ [s_occ s] else offs)
  | UB _ => True
  end.
Proof.
  intros Hwf Hz Hbl Hat Hr Hb. pose proof (seq_push_cases t true w s i vs Hwf Hz Hbl Hat Hr) as HP. unfold push_spec in HP.
  destruct HP as [(w1 & w' & -> & Href & U)|(Hzl & w1 & s1 & w2 & Hroom & Hneed & Hbl1 & Hat1 & Hr1 & Hmk & [Hf Hbx] & _ & Hat2 & HP)].
  - assert (Hc : ilens t i && (s_occ s + icells t i <=? s_cap s) = false).
    { destruct Href as [[-> _]|[Hlt _]]; [reflexivity|]. destruct (N.leb_spec (s_occ s + icells t i) (s_cap s)); [lia|apply andb_false_r]. }
    rewrite Hc. apply (bits_are_mem w w' t s s); auto. intros j _. rewrite (upd_mem _ _ _ _ _ _ U) by lia.
    now rewrite (proj1 (push_refused_same _ _ _ _ _ _ Href)).
  - pose proof (isize_pos t i Hz (proj1 Hr1) Hzl) as Hsz. pose proof (icells_pos t i Hwf Hsz) as Hcp.
    assert (Hocc : s_occ s1 = s_occ s) by (destruct Hroom as [(_ & _ & ->)|(_ & E1 & _)]; [reflexivity|rewrite E1; reflexivity]).
    assert (Hoc : s_occ s1 < s_cap s1) by lia.
    assert (H1 : bits_are w1 t s1 offs).
    { destruct Hroom as [(_ & -> & ->)|(Hlt & E1 & Hg)]; [exact Hb|]. rewrite E1 in Hg |- *. cbn [with_store s_ptr s_cap] in Hg.
      rewrite E1. cbn [with_store s_ptr s_cap]. eapply bits_grown; [|exact Hg|exact Hb]. pose proof (new_cap_ge t (s_occ s + icells t i) (s_cap s)). lia. }
    pose proof (bits_mark w1 w2 t s1 offs Hoc H1 (Hbx eq_refl)) as H2. rewrite Hocc in H2.
    assert (Hrest : forall w' s', upd w2 w' (s_ptr s1 + s_occ s1 * sp_align t) (isize t i) (ibases t i) (fst (irun t i)) ->
       s_ptr s' = s_ptr s1 -> s_cap s' = s_cap s1 -> bits_are w' t s' (offs ++ [s_occ s])).
    { intros w' s' U Ep Ec. apply (bits_are_mem w2 w' t s1 s'); auto. intros j _. apply (upd_mem _ _ _ _ _ _ U).
      pose proof (icells_ge t i Hwf). right. rewrite <- Hocc in Hneed. nia. }
    destruct (snd (irun t i)) as [v|]; destruct HP as (w' & -> & U); [destruct U as [U _]; eapply Hrest; eauto|].
    rewrite Hzl. destruct (N.leb_spec (s_occ s + icells t i) (s_cap s1)); [|lia]. eapply Hrest; eauto.
Qed.

Lemma elem_below w t s vs k v :
  wf_ty t -> seq_at w t true s vs -> nth_error vs k = Some v ->
  s_ptr s + total t (firstn k vs) * sp_align t + vsize t v <= s_ptr s + s_cap s * sp_align t.
Proof.
  intros Hwf (_ & A2 & A3 & _) Hk. pose proof (total_nth t vs k v Hk) as Htn. pose proof (cells_ge t v Hwf) as Hcg. rewrite A2 in A3. nia.
Qed.
Lemma begun_bits t w s vs offs : wf_ty t -> nonzst t -> begun t w s vs offs -> bits_are w t s offs.
Proof.
  intros Hwf Hz. induction 1 as [w Hbl|w s vs offs i v w' s' H IH Hr E Ev|w s vs offs i w' s' H IH Hr E
    |w s vs offs k v a p f new w' H IH Hk Ha Hm Hn E|w s vs offs k us a hs ha fs dp news r w' H IH Hk Ha Et Hn E
    |w s vs offs it w1 s' w2 H IH E Hbl2 Hb|w s vs offs w' H IH Hbl' Hb].
  - intros o. cbn [seq_new s_cap In]. split; [intros []|]. intros [X _]. change (8 * bitmap_bytes 0) with 0 in X. lia.
  - destruct (begun_shist _ _ _ _ _ H) as [old Hs]. destruct (shist_inv t true w s vs old Hwf Hz Hs) as (Hat & Hbl & _).
    pose proof (bits_push t w s i vs offs Hwf Hz Hbl Hat Hr IH) as X. rewrite E in X. exact X.
  - destruct (begun_shist _ _ _ _ _ H) as [old Hs]. destruct (shist_inv t true w s vs old Hwf Hz Hs) as (Hat & Hbl & _).
    pose proof (bits_push t w s i vs offs Hwf Hz Hbl Hat Hr IH) as X. rewrite E in X. exact X.
  - destruct (begun_shist _ _ _ _ _ H) as [old Hs]. destruct (shist_inv t true w s vs old Hwf Hz Hs) as (Hat & Hbl & _).
    destruct (seq_iter_at _ _ _ _ _ Hwf Hbl Hat) as (_ & _ & Hobjs). cbn [seq_iter it_ptr] in Hobjs.
    pose proof (objs_nth w t (s_ptr s) vs k v Hobjs Hk) as Ho.
    pose proof Ha as Ha'. rewrite (nth_addrs t (s_ptr s) vs k v Hk) in Ha'. injection Ha' as Ea. rewrite Ea in Ho.
    pose proof (assign_ok t w a v p f new Hwf Ho Hm Hn) as HA. destruct (leaf v p) as [o|] eqn:El; [|rewrite E in HA; discriminate].
    destruct HA as (w1 & o' & E1 & Hin & U & _). rewrite E in E1. injection E1 as <-.
    apply (bits_are_mem w w' t s s); auto. intros j _. apply (upd_mem _ _ _ _ _ _ U).
    pose proof (elem_below w t s vs k v Hwf Hat Hk). lia.
  - destruct (begun_shist _ _ _ _ _ H) as [old Hs]. destruct (shist_inv t true w s vs old Hwf Hz Hs) as (Hat & Hbl & _).
    destruct (seq_ctrls_ok w t true s vs k us a hs ha fs dp news r w' Hwf Hbl Hat Hk Ha Et Hn E) as (_ & _ & _ & Hso & _).
    apply (bits_are_mem w w' t s s); auto. intros j _. apply Hso. rewrite (nth_addrs t (s_ptr s) vs k _ Hk) in Ha. injection Ha as <-.
    pose proof (elem_below w t s vs k _ Hwf Hat Hk). lia.
  - destruct (begun_shist _ _ _ _ _ H) as [old Hs]. destruct (shist_inv t true w s vs old Hwf Hz Hs) as (Hat & Hbl & _).
    destruct (take_elems_ok w t true s vs Hwf Hbl Hat) as (w1' & it' & E' & (H1 & H2 & _) & _ & _ & _).
    rewrite E in E'. injection E' as -> -> ->. rename w1' into w1.
    destruct (N.eq_dec (s_cap s) 0) as [E0|E0].
    { intros o. rewrite (IH o). cbn [s_cap]. rewrite E0. change (8 * bitmap_bytes 0) with 0. split; intros [X _]; lia. }
    apply (bits_are_mem w w2 t s); auto. intros j Hj.
    destruct Hat as (_ & _ & _ & [[[X _] _]|(B1 & B2 & _)]); [contradiction|]. rewrite <- H2 in B2.
    destruct (Hb _ B2) as [_ X2].
    { cbn [seq_block b_base s_ptr]. unfold seq_base. destruct (N.eqb_spec (s_cap s) 0); [lia|left; reflexivity]. }
    rewrite X2, H1; [reflexivity|]. cbn [seq_block b_base b_size]. change (storage_bytes t true (s_cap s)) with (s_cap s * sp_align t + bitmap_bytes (s_cap s)). lia.
  - destruct (begun_shist _ _ _ _ _ H) as [old Hs]. destruct (shist_inv t true w s vs old Hwf Hz Hs) as (Hat & Hbl & _).
    destruct (N.eq_dec (s_cap s) 0) as [E0|E0].
    { intros o. rewrite (IH o), E0. change (8 * bitmap_bytes 0) with 0. split; intros [X _]; lia. }
    apply (bits_are_mem w w' t s s); auto. intros j Hj.
    destruct Hat as (_ & _ & _ & [[[X _] _]|(B1 & B2 & _)]); [contradiction|].
    destruct (Hb _ B2) as [_ X2].
    { cbn [seq_block b_base s_ptr]. unfold seq_base. destruct (N.eqb_spec (s_cap s) 0); [lia|left; reflexivity]. }
    apply X2. cbn [seq_block b_base b_size]. change (storage_bytes t true (s_cap s)) with (s_cap s * sp_align t + bitmap_bytes (s_cap s)). lia.
Qed.

(** C19. After any history an offset is accepted exactly when it is below offset() and some push began
    an element there since the sequence was created, no matter how many take_elems came in between. *)
Theorem C19_taken_offsets_exact : forall t w s vs offs o,
  wf_ty t -> nonzst t -> begun t w s vs offs ->
  is_offset_valid t s o w = Ok ((o <? seq_offset s) && existsb (N.eqb o) offs) w /\
  (from_offset t s o w = Panic w <-> ~ (o < seq_offset s /\ In o offs)).
Proof.
  intros t w s vs offs o Hwf Hz H. pose proof (begun_bits t w s vs offs Hwf Hz H) as Hb.
  destruct (begun_shist _ _ _ _ _ H) as [old Hs]. destruct (shist_inv t true w s vs old Hwf Hz Hs) as (Hat & Hbl & _).
  pose proof (is_offset_valid_bit w t s vs o Hwf Hbl Hat) as Ev. unfold seq_offset.
  assert (Hin : existsb (N.eqb o) offs = true <-> In o offs).
  { rewrite existsb_exists. split; [intros (x & Hx & E); apply N.eqb_eq in E; now subst x|intros Hx; exists o; split; [exact Hx|apply N.eqb_refl]]. }
  assert (E : is_offset_valid t s o w = Ok ((o <? s_occ s) && existsb (N.eqb o) offs) w).
  { rewrite Ev. f_equal. destruct (N.leb_spec (s_occ s) o) as [L|L], (N.ltb_spec o (s_occ s)) as [L'|L']; try lia; try reflexivity.
    cbn [andb]. apply eq_true_iff_eq. rewrite Hin, (Hb o). split; [|tauto]. intros X. split; [|exact X].
    destruct Hat as (_ & _ & A3 & _). destruct (bitmap_cover (s_cap s)). lia. }
  split; [exact E|]. unfold from_offset. rewrite (bind_ok _ _ _ _ _ E).
  destruct (N.ltb_spec o (s_occ s)) as [L|L]; cbn [andb]; [|split; [intros _ [X _]; lia|reflexivity]].
  destruct (existsb (N.eqb o) offs) eqn:Ex.
  - split; [|intros X; exfalso; apply X; split; [exact L|now apply Hin]]. intros X. exfalso. revert X.
    unfold from_offset_unchecked. unfold bind at 1, pmul.
    destruct (o * valign t <? W); unfold ret, undef, bind; [|discriminate]. unfold check_ref.
    repeat match goal with |- context [if ?b then _ else _] => destruct b end; discriminate.
  - split; [intros _ [_ X]; apply Hin in X; congruence|reflexivity].
Qed.
(** The history of the refutation: "a", "b", take_elems, "azzzz". The offsets begun are 0, 2 and 0 again;
    offset() is 6, so 2 is accepted. *)
Example C19_exact_meets : exists w s vs, begun (TStr LU8) w s vs [0; 2; 0] /\ seq_offset s = 6 /\ vs = [sv [97;122;122;122;122]].
Proof.
  assert (G : match c19_run with Ok _ (_, s) => s_occ s = 6 | _ => False end) by (vm_compute; reflexivity).
  unfold c19_run in G. unfold bind at 1 in G.
  assert (Hc : forall l, len l < 256 -> forall w s, push_ready w (TStr LU8) true s (si l)) by (intros; apply closed_ready, closed_si; assumption).
  assert (F1 : match seq_push (TStr LU8) true (si [97]) (w_start, seq_new (TStr LU8)) with Ok _ (_, s) => s_occ s = 2 | _ => False end) by (vm_compute; reflexivity).
  destruct (seq_push (TStr LU8) true (si [97]) (w_start, seq_new (TStr LU8))) as [[] [w1 s1]| |] eqn:E1; [|contradiction|contradiction].
  pose proof (B_push _ _ _ _ _ _ (sv [97]) _ _ (B_new (TStr LU8) w_start w_start_ok) (Hc [97] eq_refl _ _) E1 eq_refl) as H1.
  unfold bind at 1 in G. destruct (seq_push (TStr LU8) true (si [98]) (w1, s1)) as [[] [w2 s2]| |] eqn:E2; [|contradiction|contradiction].
  pose proof (B_push _ _ _ _ _ _ (sv [98]) _ _ H1 (Hc [98] eq_refl _ _) E2 eq_refl) as H2.
  unfold bind at 1 in G. destruct (begun_shist _ _ _ _ _ H2) as [o2 S2]. destruct (shist_inv _ _ _ _ _ _ t_str_wf t_str_nonzst S2) as (Hat2 & Hbl2 & _).
  destruct (take_elems_ok w2 (TStr LU8) true s2 _ t_str_wf Hbl2 Hat2) as (w3 & it & E3 & Hs & Hit & _ & _).
  rewrite (bind_ok _ _ _ _ _ E3) in G.
  rewrite (lft_ok _ _ _ _ _ (owned_elems_drop_ok w3 (TStr LU8) it _ t_str_wf Hit)) in G.
  change (map EDrop (all_drops (TStr LU8) (([] ++ [sv [97]]) ++ [sv [98]]))) with (@nil event) in G. rewrite add_log_nil in G.
  assert (H3 : begun (TStr LU8) w3 (mkS (s_ptr s2) 0 0 (s_cap s2)) [] (([] ++ [seq_offset (seq_new (TStr LU8))]) ++ [seq_offset s1])).
  { eapply B_take; [exact H2|exact E3| |auto]. destruct Hs as (_ & Hb & _). rewrite Hb. exact Hbl2. }
  destruct (seq_push (TStr LU8) true (si [97;122;122;122;122]) (w3, mkS (s_ptr s2) 0 0 (s_cap s2))) as [[] [w4 s4]| |] eqn:E4; [|contradiction|contradiction].
  pose proof (B_push _ _ _ _ _ _ (sv [97;122;122;122;122]) _ _ H3 (Hc [97;122;122;122;122] eq_refl _ _) E4 eq_refl) as H4.
  unfold seq_offset in *. cbn [s_occ seq_new app] in H4. rewrite F1 in H4. exists w4, s4. eexists. split; [exact H4|]. split; [exact G|reflexivity].
Qed.

(** ** Concrete cases on both sides of each frontier *)
(** C12: Array<u8, u8> has size one (moved), the struct of the examples has size 16 (not moved). *)
Example C12_exact_meets :
  let w := set_blocks w_str (mkB 8192 (vsize t_str v_str) 1 true :: w_blocks w_str) in
  wf_ty t_str /\ obj_at w t_str 4096 v_str /\ In (mkB 8192 (vsize t_str v_str) 1 true) (w_blocks w) /\
  place_ok (w_blocks w) t_str 8192 (vsize t_str v_str) /\ apart 4096 (vsize t_str v_str) 8192 (vsize t_str v_str) /\
  0 < vsize t_str v_str /\ head_size t_str = 1 /\ head_size t_ex = 16.
Proof.
  cbv zeta. split; [apply u8_ok|]. split; [|split; [left; reflexivity|split; [|split; [right; right; left; vm_compute; discriminate|repeat split; vm_compute; reflexivity]]]].
  - pose proof w_str_at as (H1 & (H2 & H3 & H4 & H5) & H6). split; [exact H1|]. split; [|exact H6]. repeat split; auto.
    eapply live_incl; [exact H5|]. cbn [set_blocks w_blocks]. apply incl_tl, incl_refl.
  - unfold place_ok. conc. right. eexists. split; [left; reflexivity|]. conc.
Qed.
(** C37: the struct of the refutation; the mixture of one new and one old controller has another length. *)
Example C37_exact_meets :
  ctrls_ok fs_two [c_2; c_1] /\ lengths_eval fs_two [c_2; c_1] /\
  ~ same_lengths fs_two (vctrls fs_two vs_two) (mixed 1 [c_2; c_1] (vctrls fs_two vs_two)) /\
  match try_set_layout_controllers fs_two 4096 panics_on_1 [c_2; c_1] w_two with Panic _ => True | _ => False end.
Proof.
  split; [repeat constructor|]. split; [cbn; conc|]. split; [|vm_compute; exact I]. intros [H _]. vm_compute in H. discriminate.
Qed.
(** C43: a size on each side, under the old limit. *)
Example C43_exact_meets : 2 ^ 64 <= (2 ^ 64 - 8) + ceil_div ((2 ^ 64 - 8) / 8) 8 /\ ~ 2 ^ 64 <= 112 + ceil_div (112 / 8) 8.
Proof. split; vm_compute; intros H; congruence. Qed.
