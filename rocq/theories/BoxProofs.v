(** BoxProofs.v - VBox and Owned. *)
From Verif Require Export CloneProofs.

Lemma upd_log_eq w w' a n b e : upd w w' a n b e -> w_log w' = w_log w ++ e.
Proof. intros H; apply H. Qed.

(** ** fresh storage *)
Lemma fresh_apart bl p n al :
  valid_answer bl p n al = true ->
  p <> 0 /\ p mod al = 0 /\ p + n < W /\
  (forall b, In b bl -> p + n <= b_base b \/ b_base b + b_size b <= p) /\
  (forall a k, live bl a k -> apart a k p n).
Proof.
  unfold valid_answer. rewrite !andb_true_iff, negb_true_iff, forallb_forall. intros (((H1 & H2) & H3) & H4).
  apply N.eqb_neq in H1. apply N.eqb_eq in H2. apply N.ltb_lt in H3.
  assert (H5 : forall b, In b bl -> p + n <= b_base b \/ b_base b + b_size b <= p).
  { intros b Hb. specialize (H4 b Hb). unfold disjoint_from in H4. apply orb_true_iff in H4. rewrite !N.leb_le in H4. exact H4. }
  repeat split; auto. intros a k [->|(b & Hb & L1 & L2)]; unfold apart; [auto|]. specialize (H5 b Hb). lia.
Qed.

Lemma isrc_retarget :
  (forall t, wf_ty t -> forall i bl bl' m m' D n bl1 bl1' D' n', iwt t i -> isrc bl bl' m D n t i -> incl bl' bl ->
     (forall a k, live bl a k -> apart a k D' n') -> same_outside m m' D' n' -> incl bl bl1 -> incl bl' bl1' ->
     isrc bl1 bl1' m' D' n' t i) /\
  (forall fs, wf_flds fs -> forall is_ bl bl' m m' D n bl1 bl1' D' n', iwt_flds fs is_ -> isrc_flds bl bl' m D n fs is_ -> incl bl' bl ->
     (forall a k, live bl a k -> apart a k D' n') -> same_outside m m' D' n' -> incl bl bl1 -> incl bl' bl1' ->
     isrc_flds bl1 bl1' m' D' n' fs is_).
Proof.
  assert (Hsrc : forall t bl bl1 m m' D' n' a v, wf_ty t -> vok t v -> src_ok bl m t a v ->
    (forall a k, live bl a k -> apart a k D' n') -> same_outside m m' D' n' -> incl bl bl1 ->
    src_ok bl1 m' t a v /\ apart a (vsize t v) D' n').
  { intros t bl bl1 m m' D' n' a v Hwf Hv ((P0 & Pm & PW & Pl) & Hr) Ha Hs Hi. pose proof (Ha _ _ Pl) as Hap. split; [|exact Hap].
    split; [repeat split; auto; eapply live_incl; eauto|]. eapply repr_frame; eauto. }
  assert (Hc : forall t bl bl' m m' D n bl1' D' n' a v, wf_ty t -> vok t v -> src_ok bl' m t a v /\ apart a (vsize t v) D n -> incl bl' bl ->
    (forall a k, live bl a k -> apart a k D' n') -> same_outside m m' D' n' -> incl bl' bl1' ->
    src_ok bl1' m' t a v /\ apart a (vsize t v) D' n').
  { intros t bl bl' m m' D n bl1' D' n' a v Hwf Hv [Hs _] Hi Ha Hm Hi'.
    apply (Hsrc t bl' bl1' m m' D' n' a v); auto. intros a0 k Hl. apply Ha. eapply live_incl; eauto. }
  assert (Hb : forall t bl m m' D n bl1 D' n' a v, wf_ty t -> vok t v ->
    In (box_block t a v) bl /\ src_ok bl m t a v /\ apart a (vsize t v) D n ->
    (forall a k, live bl a k -> apart a k D' n') -> same_outside m m' D' n' -> incl bl bl1 ->
    In (box_block t a v) bl1 /\ src_ok bl1 m' t a v /\ apart a (vsize t v) D' n').
  { intros t bl m m' D n bl1 D' n' a v Hwf Hv (H1 & H2 & H3) Ha Hs Hi. split; [auto|]. eapply Hsrc; eauto. }
  assert (HA : forall f bl bl' m m' D n bl1' D' n' ai, fty_ok f -> aok f ai -> asrc bl' m D n f ai -> incl bl' bl ->
    (forall a k, live bl a k -> apart a k D' n') -> same_outside m m' D' n' -> incl bl' bl1' -> asrc bl1' m' D' n' f ai).
  { intros f bl bl' m m' D n bl1' D' n' ai Hf Hok Hs H1 H2 H3 H4. destruct ai; cbn [asrc aok] in *; auto.
    - apply (Hc _ bl bl' m m' D n bl1' D' n'); auto; [now apply tslice_wf|apply tslice_vok; tauto].
    - apply (Hc _ bl bl' m m' D n bl1' D' n'); auto; [now apply tslice_wf|apply tslice_vok; tauto]. }
  apply vty_flds_ind.
  - intros f Hwf i bl bl' m m' D n bl1 bl1' D' n' Hi Hs. intros. destruct i; cbn [iwt isrc] in *; try contradiction; auto.
    + apply (Hc (TFixed f) bl bl' m m' D n bl1' D' n' a (VFix ghost)); auto; tauto.
    + apply (Hc _ bl bl' m m' D n bl1' D' n'); auto; tauto.
    + eapply Hb; eauto.
    + apply (Hc _ bl bl' m m' D n bl1' D' n'); auto; tauto.
  - intros f k Hwf i bl bl' m m' D n bl1 bl1' D' n' Hi Hs. intros. destruct i; cbn [iwt isrc] in *; try contradiction; auto.
    + apply (HA f bl bl' m m' D n bl1' D' n'); auto; tauto.
    + apply (Hc _ bl bl' m m' D n bl1' D' n'); auto; tauto.
    + eapply Hb; eauto.
    + apply (Hc _ bl bl' m m' D n bl1' D' n'); auto; tauto.
  - intros t IH Hwf i bl bl' m m' D n bl1 bl1' D' n' Hi Hs. intros. destruct i; cbn [iwt isrc] in *; try contradiction; auto.
    + eapply IH; eauto.
    + apply (Hc _ bl bl' m m' D n bl1' D' n'); auto; tauto.
    + eapply Hb; eauto.
    + apply (Hc _ bl bl' m m' D n bl1' D' n'); auto; tauto.
  - intros kd hs ha fs IH Hwf i bl bl' m m' D n bl1 bl1' D' n' Hi Hs. intros. destruct i; cbn [iwt isrc] in *; try contradiction; auto.
    + eapply IH; eauto. apply Hwf.
    + apply (Hc _ bl bl' m m' D n bl1' D' n'); auto; tauto.
    + eapply Hb; eauto.
    + apply (Hc _ bl bl' m m' D n bl1' D' n'); auto; tauto.
  - intros; exact I.
  - intros off f r IH Hwf is_ bl bl' m m' D n bl1 bl1' D' n' Hi Hs. intros. destruct is_ as [|[] is_]; cbn [iwt_flds isrc_flds wf_flds] in *; try contradiction.
    eapply IH; eauto; tauto.
  - intros off f r IH Hwf is_ bl bl' m m' D n bl1 bl1' D' n' Hi Hs. intros. destruct is_ as [|[] is_]; cbn [iwt_flds isrc_flds wf_flds] in *; try contradiction.
    eapply IH; eauto; tauto.
  - intros t IHt r IH [Hwt Hwr] is_ bl bl' m m' D n bl1 bl1' D' n' Hi Hs. intros. destruct is_ as [|i is_]; cbn [iwt_flds isrc_flds] in *; try contradiction.
    destruct Hi, Hs. split; [eapply IHt|eapply IH]; eauto.
  - intros f lf r IH (Hf & Hwr) is_ bl bl' m m' D n bl1 bl1' D' n' Hi Hs. intros. destruct is_ as [|[] is_]; cbn [iwt_flds isrc_flds] in *; try contradiction.
    destruct Hi, Hs. split; [apply (HA f bl bl' m m' D n bl1' D' n'); auto|eapply IH; eauto].
Qed.


Lemma usable_drop t w i :
  wf_ty t -> usable w t i ->
  exists w', drop_init t i w = Ok tt w' /\ upd w w' 0 0 (ibases t i) (idrop t i).
Proof.
  intros Hwf (A1 & A2 & A3). eapply (proj1 drop_init_all t Hwf w i _ 0 0). repeat split; eauto. apply incl_refl.
Qed.
Lemma usable_boxes_in t w i b : usable w t i -> In b (ibases t i) -> exists bk, In bk (w_blocks w) /\ b_base bk = b.
Proof.
  intros (A1 & A2 & A3) Hb. apply in_map_iff in Hb. destruct Hb as (bk & <- & Hb). exists bk. split; auto.
  eapply (proj1 isrc_boxes_all); eauto.
Qed.

(** adding a fresh block *)
Lemma usable_fresh t w i p n al hp :
  wf_ty t -> wf_blocks (w_blocks w) -> usable w t i -> valid_answer (w_blocks w) p n al = true -> 0 < n ->
  forall w1, w_blocks w1 = mkB p n al hp :: w_blocks w -> same_outside (w_mem w) (w_mem w1) p n ->
  init_ready w1 t i p n /\
  without (w_blocks w1) (ibases t i) = mkB p n al hp :: without (w_blocks w) (ibases t i) /\
  ~ In p (ibases t i).
Proof.
  intros Hwf Hbl Hu Hv Hn w1 Hb1 Hm1. destruct (fresh_apart _ _ _ _ Hv) as (F0 & Fm & FW & Fb & Fa).
  assert (Hnot : ~ In p (ibases t i)).
  { intros Hin. destruct (usable_boxes_in _ _ _ _ Hu Hin) as (bk & Hk & Ek). specialize (Fb bk Hk).
    destruct Hbl as [Hbl _]. specialize (Hbl bk Hk). lia. }
  assert (Hwo : without (w_blocks w1) (ibases t i) = mkB p n al hp :: without (w_blocks w) (ibases t i)).
  { rewrite Hb1. unfold without. cbn [filter b_base].
    destruct (existsb (N.eqb p) (ibases t i)) eqn:E; [|reflexivity].
    apply existsb_exists in E. destruct E as (x & Hx & Ex). apply N.eqb_eq in Ex. subst. contradiction. }
  split; [|split; auto]. destruct Hu as (A1 & A2 & A3). repeat split; auto.
  eapply (proj1 isrc_retarget t Hwf); [exact A1|exact A3|apply without_incl|exact Fa|exact Hm1| |].
  - rewrite Hb1. apply incl_tl, incl_refl.
  - rewrite Hwo. apply incl_tl, incl_refl.
Qed.

Lemma alloc_cases size al w :
  0 < size ->
  (exists p, valid_answer (w_blocks w) p size al = true /\ w_alloc w (w_tick w) size al = Some p /\
     alloc size al w = Ok p (mkW (fill (w_mem w) p size Un) (mkB p size al true :: w_blocks w)
                  (w_alloc w) (S (w_tick w)) (w_log w ++ [EAlloc p size al]))) \/
  ((forall p, w_alloc w (w_tick w) size al = Some p -> valid_answer (w_blocks w) p size al = false) /\
   alloc size al w = Ok 0 (tick w)).
Proof.
  intros Hs. unfold alloc. destruct (N.eqb_spec size 0); [lia|].
  destruct (w_alloc w (w_tick w) size al) as [p|] eqn:E; [|right; split; [discriminate|reflexivity]].
  destruct (valid_answer (w_blocks w) p size al) eqn:Ev.
  - left. exists p. auto.
  - right. split; [|reflexivity]. intros q Eq. injection Eq as <-. exact Ev.
Qed.
Lemma fill_out m a n c : same_outside m (fill m a n c) a n.
Proof.
  intros x Hx. unfold fill. destruct (N.leb_spec a x), (N.ltb_spec x (a + n)); cbn [andb]; auto; lia.
Qed.
Lemma pow2_test al : pow2 al -> N.eqb al (2 ^ N.log2 al) = true.
Proof. intros (k & Hk & ->). rewrite N.log2_pow2 by lia. apply N.eqb_refl. Qed.
Lemma fsa_ok t n : wf_ty t -> from_size_align n (sp_align t) = (n + (sp_align t - 1) <=? ISIZE_MAX).
Proof. intros Hwf. unfold from_size_align, from_size_align_lim. rewrite pow2_test by (apply sp_align_pow2; auto). reflexivity. Qed.

(** VBox::new, all outcomes. *)
Lemma fits_W t i : fits t i = true -> isize t i < W.
Proof. unfold fits. intros H. apply andb_prop in H. destruct H as [_ H]. apply N.leb_le in H. rewrite ISIZE_eq in H. rewrite W_eq. lia. Qed.
Lemma fits_lens t i : fits t i = true -> ilens t i = true.
Proof. unfold fits. intros H. now apply andb_prop in H. Qed.
Lemma fits_size t i : fits t i = true -> isize t i + (sp_align t - 1) <= ISIZE_MAX.
Proof. unfold fits. intros H. apply andb_prop in H. now apply N.leb_le. Qed.
Lemma fits_fsa t i : wf_ty t -> ilens t i = true -> from_size_align (isize t i) (sp_align t) = fits t i.
Proof. intros Hwf Hz. rewrite fsa_ok by auto. unfold fits. now rewrite Hz. Qed.

Lemma vbox_new_cases t w i :
  wf_ty t -> wf_blocks (w_blocks w) -> usable w t i ->
  (fits t i = false /\ exists w', vbox_new t i w = Panic w' /\ upd w w' 0 0 (ibases t i) (idrop t i)) \/
  (fits t i = true /\ isize t i = 0 /\ vbox_new t i w = UB UZeroAlloc) \/
  (fits t i = true /\ 0 < isize t i /\
   (forall p, w_alloc w (w_tick w) (isize t i) (sp_align t) = Some p -> valid_answer (w_blocks w) p (isize t i) (sp_align t) = false) /\
   vbox_new t i w = UB UNull) \/
  (fits t i = true /\ 0 < isize t i /\ exists p w1,
   w1 = mkW (fill (w_mem w) p (isize t i) Un) (mkB p (isize t i) (sp_align t) true :: w_blocks w)
            (w_alloc w) (S (w_tick w)) (w_log w ++ [EAlloc p (isize t i) (sp_align t)]) /\
   valid_answer (w_blocks w) p (isize t i) (sp_align t) = true /\
   without (w_blocks w1) (ibases t i) = mkB p (isize t i) (sp_align t) true :: without (w_blocks w) (ibases t i) /\
   match snd (irun t i) with
   | Some v => exists w', vbox_new t i w = Ok p w' /\ upd w1 w' p (isize t i) (ibases t i) (fst (irun t i)) /\
       repr (w_mem w') t p v
   | None => exists w', vbox_new t i w = Panic w' /\ upd w1 w' p (isize t i) (ibases t i) (fst (irun t i))
   end).
Proof.
  intros Hwf Hbl Hu. unfold vbox_new.
  pose proof (lay_size_ishape t i (proj1 Hu)) as Els.
  destruct (ilens t i) eqn:Ez.
  2:{ left. split; [unfold fits; now rewrite Ez|]. destruct (usable_drop t w i Hwf Hu) as (w' & E & U). exists w'. split; [|exact U].
      destruct (init_layout_bad t w i 0 0 Hwf Hu Ez) as [El|El].
      - step (on_unwind_ok _ (drop_init t i) _ _ _ El). now step E.
      - apply bind_panic. eapply on_unwind_panic; eauto. }
  pose proof (init_layout_ok t w i 0 0 Hwf Hu Ez) as El. step (on_unwind_ok _ (drop_init t i) _ _ _ El).
  destruct (fits t i) eqn:Ef.
  2:{ left. split; auto. destruct (usable_drop t w i Hwf Hu) as (w' & E & U). exists w'. split; [|exact U].
      destruct (N.ltb_spec (isize t i) W).
      - rewrite Els, (valign_sp t Hwf), fits_fsa, Ef by auto. now step E.
      - now step E. }
  right. pose proof (fits_W _ _ Ef) as HW. destruct (N.ltb_spec (isize t i) W); [|lia].
  rewrite Els, (valign_sp t Hwf), fits_fsa, Ef by auto.
  destruct (N.eq_dec (isize t i) 0) as [E0|E0].
  { left. repeat split; auto. unfold bind, alloc. rewrite E0. reflexivity. }
  right. assert (Hp : 0 < isize t i) by lia.
  destruct (alloc_cases (isize t i) (sp_align t) w Hp) as [(p & Hv & Ha & E)|[Hno E]]; rewrite (bind_ok _ _ _ _ _ E).
  2:{ left. auto. }
  right. split; [reflexivity|]. split; [exact Hp|]. destruct (fresh_apart _ _ _ _ Hv) as (F0 & Fm & FW & Fb & Fa).
  set (w1 := mkW (fill (w_mem w) p (isize t i) Un) (mkB p (isize t i) (sp_align t) true :: w_blocks w)
            (w_alloc w) (S (w_tick w)) (w_log w ++ [EAlloc p (isize t i) (sp_align t)])).
  exists p, w1. split; [reflexivity|]. split; [exact Hv|].
  destruct (usable_fresh t w i p _ _ true Hwf Hbl Hu Hv Hp w1 eq_refl (fill_out _ _ _ _)) as (R1 & R2 & R3).
  split; [exact R2|]. destruct (N.eqb_spec p 0); [contradiction|].
  assert (Hpl : place_ok (without (w_blocks w1) (ibases t i)) t p (isize t i)).
  { repeat split; auto. right. rewrite R2. eexists. split; [left; reflexivity|]. cbn. lia. }
  pose proof (initialize_ok t w1 i p Hwf R1 Hpl Ez) as B. unfold build_res in B.
  destruct (snd (irun t i)) as [v|].
  - destruct B as (w' & E1 & U1 & Rp). exists w'. split; [now step E1|auto].
  - destruct B as (w' & E1 & U1). exists w'. split; [now apply bind_panic|auto].
Qed.

Lemma wf_blocks_cons bl p n al hp :
  wf_blocks bl -> valid_answer bl p n al = true -> 0 < n -> wf_blocks (mkB p n al hp :: bl).
Proof.
  intros [H1 H2] Hv Hn. destruct (fresh_apart _ _ _ _ Hv) as (F0 & Fm & FW & Fb & Fa). split.
  - intros b [<-|Hb]; [cbn; lia|auto].
  - constructor; auto. apply Forall_forall. intros b Hb. specialize (Fb b Hb). unfold blocks_apart. cbn. lia.
Qed.

(** A live object in storage that survives is unaffected by an update elsewhere. *)
Lemma obj_frame w w' t a v p n :
  wf_ty t -> obj_at w t a v -> same_outside (w_mem w) (w_mem w') p n -> apart a (vsize t v) p n ->
  live (w_blocks w') a (vsize t v) -> obj_at w' t a v.
Proof.
  intros Hwf (Hv & (P0 & Pm & PW & Pl) & Hr) Hs Ha Hl. split; auto. split; [repeat split; auto|].
  eapply repr_frame; eauto.
Qed.
