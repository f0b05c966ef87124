(** BoxFacts.v - arena allocation, life of a box, panicking clones. *)
From Verif Require Export Examples.

Lemma upd_obj w w' t i p v : wf_ty t -> iwt t i -> ilens t i = true -> ival t i = Some v ->
  upd w w' p (isize t i) (ibases t i) (fst (irun t i)) -> repr (w_mem w') t p v ->
  place_ok (without (w_blocks w) (ibases t i)) t p (isize t i) -> obj_at w' t p v.
Proof.
  intros Hwf Hi Hz Ev U Hr Hp. destruct (proj1 ival_ok_all t Hwf i v Hi Ev) as [Hv Hs].
  split; [exact (Hv Hz)|]. split; [|exact Hr]. destruct U as (_ & -> & _). unfold vsize. rewrite Hs. exact Hp.
Qed.

(** ** VBox::new returned *)
Lemma vbox_new_ok t w i p w' :
  wf_ty t -> wf_blocks (w_blocks w) -> usable w t i -> vbox_new t i w = Ok p w' ->
  exists v, ival t i = Some v /\ box_at w' t p v /\ vsize t v = isize t i /\ 0 < isize t i /\
    wf_blocks (w_blocks w') /\
    valid_answer (w_blocks w) p (isize t i) (sp_align t) = true /\
    w_blocks w' = mkB p (isize t i) (sp_align t) true :: without (w_blocks w) (ibases t i) /\
    w_log w' = w_log w ++ EAlloc p (isize t i) (sp_align t) :: fst (irun t i) /\
    untouched w w' (ibases t i).
Proof.
  intros Hwf Hbl Hu E.
  destruct (vbox_new_cases t w i Hwf Hbl Hu) as [(_ & w1 & E1 & _)|[(_ & _ & E1)|[(_ & _ & _ & E1)|(Hf & Hpos & p' & w1 & Hw1 & Hv & Hbs & HB)]]];
    rewrite E in *; try discriminate.
  destruct (snd (irun t i)) as [v|] eqn:Er; [|destruct HB as (w2 & E2 & _); discriminate].
  destruct HB as (w2 & E2 & U & Hr). injection E2 as <- <-. rewrite (proj1 irun_ival) in Er.
  destruct (proj1 ival_ok_all t Hwf i v (proj1 Hu) Er) as [Hvo Hs].
  assert (Hpl : place_ok (without (w_blocks w1) (ibases t i)) t p (isize t i)).
  { destruct (fresh_apart _ _ _ _ Hv) as (F0 & Fm & FW & Fb & Fa). repeat split; auto. right. rewrite Hbs. eexists. split; [left; reflexivity|]. cbn. lia. }
  exists v. split; [exact Er|].
  pose proof (upd_blocks _ _ _ _ _ _ U) as Ub. rewrite Hbs in Ub.
  split; [split|].
  - eapply upd_obj; [exact Hwf|apply Hu|exact (fits_lens _ _ Hf)|exact Er|exact U|exact Hr|exact Hpl].
  - rewrite Ub. left. unfold box_block, vsize. now rewrite Hs.
  - split; [unfold vsize; now rewrite Hs|]. split; [exact Hpos|].
    assert (Hb1 : wf_blocks (w_blocks w1)) by (subst w1; now apply wf_blocks_cons).
    split; [eapply upd_wf; [exact Hb1|exact U]|]. split; [exact Hv|]. split; [exact Ub|]. split.
    + rewrite (upd_log_eq _ _ _ _ _ _ U). subst w1. cbn [w_log]. now rewrite <- app_assoc.
    + intros b Hb Hn. rewrite Ub. split; [right; apply in_without; auto|].
      intros x Hx. destruct (fresh_apart _ _ _ _ Hv) as (_ & _ & _ & Fb & _). specialize (Fb b Hb).
      rewrite (upd_mem _ _ _ _ _ _ U x) by lia. subst w1. apply fill_out. lia.
Qed.
Lemma vbox_new_panic t w i w' :
  wf_ty t -> wf_blocks (w_blocks w) -> usable w t i -> vbox_new t i w = Panic w' ->
  wf_blocks (w_blocks w') /\ untouched w w' (ibases t i) /\
  ((fits t i = false /\ w_log w' = w_log w ++ idrop t i /\ w_blocks w' = without (w_blocks w) (ibases t i)) \/
   (fits t i = true /\ ival t i = None /\ exists p, w_log w' = w_log w ++ EAlloc p (isize t i) (sp_align t) :: fst (irun t i) /\
      w_blocks w' = mkB p (isize t i) (sp_align t) true :: without (w_blocks w) (ibases t i) /\
      valid_answer (w_blocks w) p (isize t i) (sp_align t) = true)).
Proof.
  intros Hwf Hbl Hu E.
  destruct (vbox_new_cases t w i Hwf Hbl Hu) as [(Hf & w1 & E1 & U)|[(_ & _ & E1)|[(_ & _ & _ & E1)|(Hf & Hpos & p' & w1 & Hw1 & Hv & Hbs & HB)]]];
    rewrite E in *; try discriminate.
  - injection E1 as <-. split; [eapply upd_wf; eauto|]. split; [eapply untouched_upd0; [exact U|apply incl_refl]|]. left.
    split; [exact Hf|]. split; apply U.
  - destruct (snd (irun t i)) as [v|] eqn:Er; [destruct HB as (w2 & E2 & _); discriminate|].
    destruct HB as (w2 & E2 & U). injection E2 as <-. rewrite (proj1 irun_ival) in Er.
    pose proof (upd_blocks _ _ _ _ _ _ U) as Ub. rewrite Hbs in Ub.
    assert (Hb1 : wf_blocks (w_blocks w1)) by (subst w1; now apply wf_blocks_cons).
    split; [eapply upd_wf; [exact Hb1|exact U]|]. split.
    + intros b Hb Hn. rewrite Ub. split; [right; apply in_without; auto|].
      intros x Hx. destruct (fresh_apart _ _ _ _ Hv) as (_ & _ & _ & Fb & _). specialize (Fb b Hb).
      rewrite (upd_mem _ _ _ _ _ _ U x) by lia. subst w1. apply fill_out. lia.
    + right. split; [exact Hf|]. split; [exact Er|]. exists p'. split; [|auto].
      rewrite (upd_log_eq _ _ _ _ _ _ U). subst w1. cbn [w_log]. now rewrite <- app_assoc.
Qed.

(** ** Owned::new_in *)
Lemma bump_cases size al w :
  (exists p, valid_answer (w_blocks w) p size al = true /\
     bump_alloc size al w = Ok p (if size =? 0 then tick w else
        mkW (fill (w_mem w) p size Un) (mkB p size al false :: w_blocks w) (w_alloc w) (S (w_tick w)) (w_log w))) \/
  ((forall p, w_alloc w (w_tick w) size al = Some p -> valid_answer (w_blocks w) p size al = false) /\
   bump_alloc size al w = Panic (tick w)).
Proof.
  unfold bump_alloc. destruct (w_alloc w (w_tick w) size al) as [p|] eqn:E; [|right; split; [discriminate|reflexivity]].
  destruct (valid_answer (w_blocks w) p size al) eqn:Ev.
  - left. exists p. split; [exact Ev|]. destruct (size =? 0); reflexivity.
  - right. split; [|reflexivity]. intros q Eq. injection Eq as <-. exact Ev.
Qed.
Lemma usable_tick w t i : usable w t i -> usable (tick w) t i.
Proof. intros H. exact H. Qed.

Definition new_in_ok (t : vty) (i : init) (w : world) (p : N) (w' : world) : Prop :=
  exists v, ival t i = Some v /\ obj_at w' t p v /\ vsize t v = isize t i /\ wf_blocks (w_blocks w') /\
    w_blocks w' = (if isize t i =? 0 then [] else [mkB p (isize t i) (sp_align t) false]) ++ without (w_blocks w) (ibases t i) /\
    w_log w' = w_log w ++ fst (irun t i) /\ untouched w w' (ibases t i) /\
    valid_answer (w_blocks w) p (isize t i) (sp_align t) = true /\ fits t i = true.
Lemma owned_new_in_cases t w i :
  wf_ty t -> wf_blocks (w_blocks w) -> usable w t i ->
  match owned_new_in t i w with
  | Ok p w' => new_in_ok t i w p w'
  | Panic w' => wf_blocks (w_blocks w') /\ untouched w w' (ibases t i) /\
      (w_log w' = w_log w ++ idrop t i \/ (fits t i = true /\ ival t i = None /\ w_log w' = w_log w ++ fst (irun t i))) /\
      (forall b, In b (w_blocks w') -> b_heap b = true -> In b (w_blocks w) /\ ~ In (b_base b) (ibases t i))
  | UB _ => False
  end.
Proof.
  intros Hwf Hbl Hu. unfold owned_new_in.
  pose proof (lay_size_ishape t i (proj1 Hu)) as Els.
  destruct (usable_drop t w i Hwf Hu) as (wd & Ed & Ud).
  assert (Hd : match (drop_init t i ;;; panic (A := N)) w with
    | Ok p w' => False | Panic w' => wf_blocks (w_blocks w') /\ untouched w w' (ibases t i) /\
      (w_log w' = w_log w ++ idrop t i \/ (fits t i = true /\ ival t i = None /\ w_log w' = w_log w ++ fst (irun t i))) /\
      (forall b, In b (w_blocks w') -> b_heap b = true -> In b (w_blocks w) /\ ~ In (b_base b) (ibases t i)) | UB _ => False end).
  { step Ed. cbn. split; [eapply upd_wf; eauto|]. split; [eapply untouched_upd0; [exact Ud|apply incl_refl]|]. split; [left; apply Ud|].
    intros b Hb _. rewrite (upd_blocks _ _ _ _ _ _ Ud) in Hb. now apply in_without. }
  destruct (ilens t i) eqn:Ez.
  2:{ destruct (init_layout_bad t w i 0 0 Hwf Hu Ez) as [El|El].
      - step (on_unwind_ok _ (drop_init t i) _ _ _ El). destruct ((drop_init t i ;;; panic (A := N)) w); auto. contradiction.
      - rewrite (bind_panic _ _ _ _ (on_unwind_panic _ (drop_init t i) _ _ _ El Ed)).
        unfold bind in Hd. rewrite Ed in Hd. exact Hd. }
  pose proof (init_layout_ok t w i 0 0 Hwf Hu Ez) as El. step (on_unwind_ok _ (drop_init t i) _ _ _ El).
  destruct (N.ltb_spec (isize t i) W) as [HW|HW].
  2:{ destruct ((drop_init t i ;;; panic (A := N)) w); auto. contradiction. }
  rewrite Els, (valign_sp t Hwf), fits_fsa by auto. destruct (fits t i) eqn:Ef.
  2:{ destruct ((drop_init t i ;;; panic (A := N)) w); auto. contradiction. }
  clear Hd. destruct (bump_cases (isize t i) (sp_align t) w) as [(p & Hv & E)|[Hno E]].
  2:{ destruct (usable_drop t (tick w) i Hwf (usable_tick _ _ _ Hu)) as (w' & E' & U').
      assert (E2 : on_unwind (bump_alloc (isize t i) (sp_align t)) (drop_init t i) w = Panic w') by (unfold on_unwind; now rewrite E, E').
      rewrite (bind_panic _ _ _ _ E2). split; [eapply (upd_wf (tick w)); eauto|]. split; [|split; [left; apply U'|]].
      2:{ intros b Hb _. rewrite (upd_blocks _ _ _ _ _ _ U') in Hb. now apply in_without in Hb. }
      intros b Hb Hn. apply (untouched_upd0 (tick w) w' _ _ _ U' (incl_refl _) b Hb Hn). }
  set (w1 := if isize t i =? 0 then tick w else
        mkW (fill (w_mem w) p (isize t i) Un) (mkB p (isize t i) (sp_align t) false :: w_blocks w) (w_alloc w) (S (w_tick w)) (w_log w)) in *.
  assert (E2 : on_unwind (bump_alloc (isize t i) (sp_align t)) (drop_init t i) w = Ok p w1) by (unfold on_unwind; now rewrite E).
  step E2. destruct (fresh_apart _ _ _ _ Hv) as (F0 & Fm & FW & Fb & Fa).
  assert (HR : init_ready w1 t i p (isize t i) /\
     without (w_blocks w1) (ibases t i) = (if isize t i =? 0 then [] else [mkB p (isize t i) (sp_align t) false]) ++ without (w_blocks w) (ibases t i) /\
     wf_blocks (w_blocks w1) /\ same_outside (w_mem w) (w_mem w1) p (isize t i) /\ w_log w1 = w_log w).
  { unfold w1. destruct (N.eqb_spec (isize t i) 0) as [E0|E0].
    - rewrite E0. split; [|split; [reflexivity|split; [exact Hbl|split; [intros x _; reflexivity|reflexivity]]]].
      change (init_ready (tick w) t i p 0) with (init_ready w t i p 0). eapply ready_narrow; [exact Hwf|exact Hu|left; reflexivity].
    - destruct (usable_fresh t w i p (isize t i) (sp_align t) false Hwf Hbl Hu Hv ltac:(lia)
        (mkW (fill (w_mem w) p (isize t i) Un) (mkB p (isize t i) (sp_align t) false :: w_blocks w) (w_alloc w) (S (w_tick w)) (w_log w))
        eq_refl (fill_out _ _ _ _)) as (R1 & R2 & R3).
      split; [exact R1|]. split; [exact R2|]. split; [|split; [apply fill_out|reflexivity]]. apply wf_blocks_cons; auto. lia. }
  destruct HR as (R1 & R2 & R3 & R4 & R5). clearbody w1. clear E E2.
  assert (Hpl : place_ok (without (w_blocks w1) (ibases t i)) t p (isize t i)).
  { repeat split; auto. destruct (N.eqb_spec (isize t i) 0) as [E0|E0]; [left; exact E0|right].
    rewrite R2. eexists. split; [left; reflexivity|]. cbn. lia. }
  assert (HU : forall w', upd w1 w' p (isize t i) (ibases t i) (fst (irun t i)) -> untouched w w' (ibases t i)).
  { intros w' U b Hb Hn. rewrite (upd_blocks _ _ _ _ _ _ U), R2. split; [apply in_or_app; right; apply in_without; auto|].
    intros x Hx. specialize (Fb b Hb). rewrite (upd_mem _ _ _ _ _ _ U x) by lia. apply R4. lia. }
  pose proof (initialize_ok t w1 i p Hwf R1 Hpl Ez) as B. unfold build_res in B. rewrite (proj1 irun_ival) in B.
  destruct (ival t i) as [v|] eqn:Ev.
  - destruct B as (w' & E1 & U1 & Rp). step E1. destruct (proj1 ival_ok_all t Hwf i v (proj1 Hu) Ev) as [Hvo Hs].
    exists v. split; [exact Ev|]. split; [eapply upd_obj; [exact Hwf|apply Hu|exact Ez|exact Ev|exact U1|exact Rp|exact Hpl]|].
    split; [unfold vsize; now rewrite Hs|]. split; [eapply upd_wf; eauto|]. split; [now rewrite (upd_blocks _ _ _ _ _ _ U1)|].
    split; [|split; [now apply HU|split; [exact Hv|exact Ef]]]. rewrite (upd_log_eq _ _ _ _ _ _ U1), R5. reflexivity.
  - destruct B as (w' & E1 & U1). rewrite (bind_panic _ _ _ _ E1). split; [eapply upd_wf; eauto|]. split; [now apply HU|].
    split; [right; split; [reflexivity|]; split; [reflexivity|]; rewrite (upd_log_eq _ _ _ _ _ _ U1), R5; reflexivity|].
    intros b Hb Hh. rewrite (upd_blocks _ _ _ _ _ _ U1), R2 in Hb. apply in_app_or in Hb. destruct Hb as [Hb|Hb]; [|now apply in_without in Hb].
    destruct (isize t i =? 0); [contradiction|]. destruct Hb as [<-|[]]. discriminate.
Qed.

(** ** The life of a box *)
Lemma box_env w w' t a v :
  wf_ty t -> box_at w t a v ->
  (forall b, In b (w_blocks w) -> b_base b = a ->
       In b (w_blocks w') /\ forall x, b_base b <= x < b_base b + b_size b -> w_mem w' x = w_mem w x) ->
  box_at w' t a v.
Proof.
  intros Hwf [(Hv & (P0 & Pm & PW & Pl) & Hr) Hb] H. destruct (H _ Hb eq_refl) as [H1 H2]. cbn [box_block b_base b_size] in *.
  split; [|exact H1]. split; [exact Hv|]. split.
  - repeat split; auto. right. eexists. split; [exact H1|]. cbn. lia.
  - apply (repr_shift t (w_mem w) _ a a v); auto. intros j Hj. apply H2. lia.
Qed.
Lemma try_set_obj hs ha fs w a vs dp news r w' :
  let t := TRec KStruct hs ha fs in
  wf_ty t -> obj_at w t a (VRec vs) -> ctrls_ok fs news ->
  try_set_layout_controllers fs a dp news w = Ok r w' ->
  exists vs', obj_at w' t a (VRec vs') /\ map vshape vs' = map vshape vs /\ w_blocks w' = w_blocks w /\
    vs' = (if r then with_ctrls fs vs news else vs) /\
    lengths_eval fs news /\ (r = true <-> same_lengths fs (vctrls fs vs) news) /\
    w_log w' = w_log w ++ ctrl_drops (ctrl_types fs) (if r then vctrls fs vs else news) /\
    outside_ctrls fs a (w_mem w) (w_mem w').
Proof.
  intros t Hwf Ho Hn E. destruct (try_set_cases hs ha fs w a vs dp news Hwf Ho Hn) as [[_ E1]|[(Hz & Hns & E1)|(Hz & Hs & w1 & k & Hk & Hr & Hout & Hb & Ha & Ht & HE)]]; [rewrite E in E1; discriminate| |].
  - rewrite E in E1. injection E1 as Er Ew. subst r w'. exists vs. split; [apply obj_log; exact Ho|]. repeat split; auto; try discriminate; try (intros; contradiction).
  - destruct HE as [(-> & E1 & El & _)|(_ & E1 & _)]; rewrite E in E1; [|discriminate]. injection E1 as Er Ew. subst r w1.
    pose proof Ho as (Hv & Hp & Hrp). destruct (with_ctrls_ok fs vs _ _ news Hv Hn Hs) as (C1 & C2 & C3).
    assert (Em : mixed (length news) news (vctrls fs vs) = news).
    { unfold mixed. rewrite firstn_all. rewrite skipn_all2; [apply app_nil_r|].
      assert (EL : length news = length (vctrls fs vs)); [|lia].
      assert (L1 : length news = length (ctrl_types fs)) by (clear -Hn; unfold ctrls_ok in Hn; induction Hn; cbn; congruence).
      rewrite L1. clear -Hv. cbn [t vok] in Hv. revert Hv. generalize (vctrls fs vs) at 1 as cs. revert vs.
      induction fs as [|off f r IH|off f r IH|t' r IH|f lf r IH]; intros vs cs Hv; destruct vs as [|v vs]; cbn in *; try contradiction; auto;
        try (destruct v; try contradiction); cbn; try f_equal; try (eapply IH; apply Hv). }
    rewrite Em in Hr. exists (with_ctrls fs vs news). split; [|repeat split; auto].
    split; [|split].
    + cbn [t vok]. now rewrite C3.
    + unfold vsize. cbn [t vshape sp_size]. rewrite C2, Hb. exact Hp.
    + exact Hr.
Qed.

Lemma box_hist_inv t w p n : wf_ty t -> box_hist t w p n ->
  wf_blocks (w_blocks w) /\ exists v, box_at w t p v /\ vsize t v = n.
Proof.
  intros Hwf. induction 1 as [w i p w' n evs Hbl Hu E El|w p n q f new w' H IH Hm Hl E|w p n hs ha fs dp news r w' H IH Et Hn E|w p n w' H IH Hbl Hb].
  - destruct (vbox_new_ok t w i p w' Hwf Hbl Hu E) as (v & Ev & Hat & Hs & _ & Hw & _ & _ & Hlog & _).
    split; [exact Hw|]. exists v. split; [exact Hat|]. rewrite Hs. rewrite Hlog in El. apply app_inv_head in El. now injection El.
  - destruct IH as (Hw & v & [Ho Hb] & Hs). pose proof (assign_ok t w p v q f new Hwf Ho Hm Hl) as HA.
    destruct (leaf v q) as [old|]; [|rewrite E in HA; discriminate].
    destruct HA as (w1 & o & E1 & _ & U & _ & Ho' & Hsh). rewrite E in E1. injection E1 as <-.
    pose proof (upd_blocks _ _ _ _ _ _ U) as Ub. rewrite without_nil in Ub. rewrite Ub. split; [exact Hw|].
    exists (put v q new). split; [|unfold vsize; now rewrite Hsh]. split; [exact Ho'|]. rewrite Ub. unfold box_block, vsize. rewrite Hsh. exact Hb.
  - subst t. destruct IH as (Hw & v & [Ho Hb] & Hs). pose proof Ho as (Hv & _). destruct v as [| | |vs]; cbn [vok] in Hv; try contradiction.
    destruct (try_set_obj hs ha fs w p vs dp news r w' Hwf Ho Hn E) as (vs' & Ho' & Hsh & Hbl & _).
    rewrite Hbl. split; [exact Hw|]. exists (VRec vs').
    assert (Esz : vsize (TRec KStruct hs ha fs) (VRec vs') = vsize (TRec KStruct hs ha fs) (VRec vs)) by (unfold vsize; cbn [vshape]; now rewrite Hsh).
    split; [|lia]. split; [exact Ho'|]. rewrite Hbl. unfold box_block. rewrite Esz. exact Hb.
  - destruct IH as (Hw & v & Hat & Hs). split; [exact Hbl|]. exists v. split; [|exact Hs]. eapply box_env; eauto.
Qed.
