(** Read.v - on a live object every accessor works and returns what the specification says. *)
From Verif Require Export Mem.

Lemma mapM_read {A B} (h : A -> M world B) (g : A -> B) l w :
  (forall x, In x l -> h x w = Ok (g x) w) -> mapM h l w = Ok (map g l) w.
Proof.
  induction l as [|x l IH]; intros H; cbn [mapM map]; [reflexivity|].
  step (H x (or_introl eq_refl)). rewrite (bind_ok _ _ w (map g l) w); [reflexivity|].
  apply IH. intros; apply H; right; auto.
Qed.

Lemma load_len_ok w k a n :
  a <> 0 -> a mod len_size k = 0 -> live (w_blocks w) a (len_size k) ->
  rd (w_mem w) a (len_size k) = enc_le (N.to_nat (len_size k)) n -> n < len_lim k ->
  load_len k a w = Ok n w.
Proof.
  intros H0 Hm Hl Hr Hn. unfold load_len. step (load_ok w a (len_size k) (len_size k) H0 Hm Hl).
  rewrite Hr, dec_enc; [reflexivity|]. rewrite len_size_nat. exact Hn.
Qed.

Lemma cat_fast_ok f n pos :
  fty_ok f -> up pos (f_align f) + n * f_size f < W ->
  cat_array_field_fast f n pos = (up pos (f_align f), n, up pos (f_align f) + n * f_size f).
Proof.
  intros Hf H. unfold cat_array_field_fast. rewrite mask_up by (auto; try apply Hf; lia).
  rewrite wmul_small by lia. rewrite wadd_small by lia. do 2 f_equal. lia.
Qed.

(** header fields of a record *)
Definition flds_place (bl : list block) (fs : flds) (A a n : N) : Prop :=
  a <> 0 /\ pow2 A /\ a mod A = 0 /\ sp_falign fs <= A /\ a + n < W /\ live bl a n.

Definition hdr_in (fs : flds) (A n : N) : Prop :=
  forall off f, In (off, f) (head_fields fs) ->
    off mod f_align f = 0 /\ off + f_size f <= n /\ f_align f <= A.

Lemma rec_place kd hs ha fs bl a n :
  wf_ty (TRec kd hs ha fs) -> place_ok bl (TRec kd hs ha fs) a n -> hs <= n ->
  flds_place bl fs (sp_align (TRec kd hs ha fs)) a n /\ hdr_in fs (sp_align (TRec kd hs ha fs)) n.
Proof.
  intros Hwf (H0 & Hm & HW & Hl) Hn. split.
  - repeat split; auto; [apply sp_align_pow2; auto|]. cbn [sp_align]. lia.
  - destruct Hwf as ((_ & _ & _ & Hh & _) & _). intros off f Hin.
    destruct (Hh off f Hin) as (A1 & A2 & A3). repeat split; auto; cbn [sp_align]; lia.
Qed.

Lemma ctrl_in_head fs off f : In (off, f) (ctrl_fields fs) -> In (off, f) (head_fields fs).
Proof. induction fs; cbn [ctrl_fields head_fields]; intros; auto; [right; auto|destruct H; [left|right]; auto]. Qed.

Lemma leaf_place A n a off f bl :
  fty_ok f -> a <> 0 -> pow2 A -> a mod A = 0 -> live bl a n ->
  off mod f_align f = 0 -> off + f_size f <= n -> f_align f <= A ->
  a + off <> 0 /\ (a + off) mod f_align f = 0 /\ live bl (a + off) (f_size f).
Proof.
  intros Hf H0 HA Hm Hl Ho Hn Hal. split; [lia|]. split.
  - pose proof (pow2_pos _ (proj1 Hf)). apply add_mod_0; auto; [lia|].
    eapply pow2_mod; [apply Hf|exact HA|exact Hal|exact Hm].
  - eapply live_sub; eauto.
Qed.

Lemma wf_ctrl fs off f : wf_flds fs -> In (off, f) (ctrl_fields fs) -> fty_ok f.
Proof.
  induction fs; cbn [wf_flds ctrl_fields]; intros Hwf Hin; try contradiction; try (apply IHfs; tauto).
  destruct Hin as [E|Hin]; [injection E as -> ->; tauto|apply IHfs; tauto].
Qed.

Lemma load_ctrls_ok fs w a A n vs cs pos :
  wf_flds fs -> flds_place (w_blocks w) fs A a n -> hdr_in fs A n ->
  vok_flds fs vs cs -> repr_flds (w_mem w) fs a vs pos ->
  load_ctrls fs a w = Ok (vctrls fs vs) w.
Proof.
  intros Hwf (H0 & HA & Hm & _ & HW & Hl) Hh Hv Hr. unfold load_ctrls.
  rewrite (mapM_read _ (fun '(off, f) => rd (w_mem w) (a + off) (f_size f))).
  - f_equal. clear Hwf Hm Hh.
    revert vs pos Hv Hr. induction fs as [|off f r IH|off f r IH|t r IH|f lf r IH]; intros vs pos Hv Hr;
      cbn [vok_flds repr_flds ctrl_fields vctrls map] in *.
    + reflexivity.
    + destruct vs as [|[] vs]; try contradiction. destruct Hr as [_ Hr]. destruct Hv as [_ Hv]. eauto.
    + destruct vs as [|[] vs]; try contradiction. destruct Hr as [Hb Hr]. destruct Hv as [_ Hv].
      f_equal; eauto.
    + destruct vs as [|v vs]; try contradiction. destruct Hr as [_ Hr]. destruct Hv as [_ Hv]. eauto.
    + destruct vs as [|[] vs]; try contradiction. destruct Hr as [_ Hr]. destruct Hv as (_ & _ & Hv). eauto.
  - intros [off f] Hin. pose proof (wf_ctrl _ _ _ Hwf Hin) as Hf.
    destruct (Hh off f (ctrl_in_head _ _ _ Hin)) as (A1 & A2 & A3).
    destruct (leaf_place A n a off f (w_blocks w) Hf H0 HA Hm Hl A1 A2 A3) as (B1 & B2 & B3).
    rewrite wadd_small by lia. now apply load_ok.
Qed.

(** ** calculate_layout *)
Lemma len_call_ok n (w : world) : n < W -> len_call n w = Ok n w.
Proof. intros H. unfold len_call. apply N.ltb_lt in H. now rewrite H. Qed.
Lemma len_call_panic n (w : world) : W <= n -> len_call n w = Panic w.
Proof. intros H. unfold len_call. apply N.ltb_ge in H. now rewrite H. Qed.
Lemma calc_ok :
  (forall t, wf_ty t -> forall w a v, vok t v -> place_ok (w_blocks w) t a (vsize t v) ->
     repr (w_mem w) t a v -> calc_layout t a w = Ok (sp_lay t (vshape v)) w) /\
  (forall fs, wf_flds fs -> forall w a vs cs pos A,
     vok_flds fs vs cs -> flds_place (w_blocks w) fs A a (sp_end fs (map vshape vs) pos) ->
     repr_flds (w_mem w) fs a vs pos ->
     calc_tail fs cs a pos w = Ok (sp_tail fs (map vshape vs) pos, sp_end fs (map vshape vs) pos) w).
Proof.
  apply vty_flds_ind.
  - intros f Hwf w a v Hv Hp Hr. destruct v; try contradiction. reflexivity.
  - intros f k Hwf w a v Hv (H0 & Hm & HW & Hl) Hr. destruct v as [|xs| |]; try contradiction.
    cbn [vok repr] in *. destruct Hv as [Hxs Hk]. destruct Hr as [Hr1 Hr2]. cbn [calc_layout].
    unfold vsize in *; cbn [vshape sp_size sp_lay sp_align] in *.
    pose proof (up_ge (len_size k) (f_align f) (pow2_pos _ (proj1 Hwf))) as Hge.
    rewrite (bind_ok _ _ w (len xs) w).
    + rewrite cat_fast_ok by (auto; lia). reflexivity.
    + apply load_len_ok; auto.
      * eapply pow2_mod; [apply len_size_pow2| |apply N.le_max_l|exact Hm].
        apply pow2_max; [apply len_size_pow2|apply Hwf].
      * eapply live_pre; eauto. lia.
  - intros t IH Hwf w a v Hv Hp Hr. destruct v; try contradiction.
    apply (IH Hwf w a v Hv Hp Hr).
  - intros kd hs ha fs IH Hwf w a v Hv Hp Hr. destruct v as [| | |vs]; try contradiction.
    cbn [calc_layout vok repr] in *. unfold vsize in *; cbn [vshape sp_size sp_lay] in *.
    assert (Hge : hs <= sp_end fs (map vshape vs) hs) by (apply sp_end_ge, Hwf).
    destruct (rec_place kd hs ha fs (w_blocks w) a _ Hwf Hp Hge) as [Hfp Hh].
    assert (Hwfs : wf_flds fs) by apply Hwf.
    step (load_ctrls_ok fs w a _ _ vs _ hs Hwfs Hfp Hh Hv Hr).
    step (IH Hwfs w a vs _ hs _ Hv Hfp Hr). reflexivity.
  - intros _ w a vs cs pos A Hv Hp Hr. destruct vs; try contradiction. reflexivity.
  - intros off f r IH Hwf w a vs cs pos A Hv Hp Hr. cbn [vok_flds repr_flds wf_flds calc_tail] in *.
    destruct vs as [|[bs| | |] vs]; try contradiction. cbn [map vshape sp_tail sp_end] in *. apply (IH (proj2 Hwf) w a vs cs pos A); tauto.
  - intros off f r IH Hwf w a vs cs pos A Hv Hp Hr. cbn [vok_flds repr_flds wf_flds calc_tail] in *.
    destruct vs as [|[bs| | |] vs]; try contradiction. cbn [map vshape sp_tail sp_end] in *. apply (IH (proj2 Hwf) w a vs cs pos A); tauto.
  - intros t IHt r IH [Hwt Hwr] w a vs cs pos A Hv (H0 & HA & Hm & Hal & HW & Hl) Hr.
    cbn [vok_flds repr_flds calc_tail sp_falign] in *.
    destruct vs as [|v vs]; try contradiction. cbn [map sp_tail sp_end] in *.
    destruct Hv as [Hv Hvs]. destruct Hr as [Hr Hrs].
    pose proof (sp_end_ge r Hwr (map vshape vs) (up pos (sp_align t) + sp_size t (vshape v))) as Hge.
    pose proof (valign_sp t Hwt) as Eal. rewrite Eal.
    pose proof (sp_align_pow2 t Hwt) as Hpw. pose proof (pow2_pos _ Hpw) as Hpos.
    set (o := up pos (sp_align t)) in *.
    assert (Ho : o mod sp_align t = 0) by (apply up_mod; auto).
    rewrite mask_up by (auto; fold o; lia). fold o. rewrite wadd_small by lia.
    assert (Hp : place_ok (w_blocks w) t (a + o) (vsize t v)).
    { repeat split; [lia| |unfold vsize; lia|].
      - apply add_mod_0; [lia| |exact Ho]. eapply pow2_mod; [exact Hpw|exact HA| |exact Hm]. lia.
      - eapply live_sub; [exact Hl|unfold vsize; lia]. }
    assert (Hc : check_ref (a + o) (head_size t) (head_align t) w = Ok tt w).
    { destruct Hp as (P0 & Pm & PW & Pl). apply check_ref_ok; auto.
      - eapply pow2_mod; [apply head_align_pow2; auto|exact Hpw|apply head_align_le; auto|exact Pm].
      - eapply live_pre; eauto. apply head_size_le; auto. }
    step Hc. step (IHt Hwt w (a + o) v Hv Hp Hr). rewrite lay_size_sp by auto.
    unfold vsize. rewrite wadd_small by lia.
    assert (Hfp : flds_place (w_blocks w) r A a (sp_end r (map vshape vs) (o + sp_size t (vshape v)))).
    { repeat split; auto; lia. }
    step (IH Hwr w a vs cs _ A Hvs Hfp Hrs). reflexivity.
  - intros f lf r IH (Hf & Hwr) w a vs cs pos A Hv (H0 & HA & Hm & Hal & HW & Hl) Hr.
    cbn [vok_flds repr_flds calc_tail sp_falign] in *.
    destruct vs as [|[|xs| |] vs]; try contradiction. cbn [map vshape sp_tail sp_end] in *.
    destruct Hv as (Hxs & [Hn HnW] & Hvs). destruct Hr as [Hr Hrs].
    pose proof (sp_end_ge r Hwr (map vshape vs) (up pos (f_align f) + len xs * f_size f)) as Hge.
    step (len_call_ok (lf cs) w HnW). rewrite <- Hn. rewrite cat_fast_ok by (auto; lia).
    assert (Hfp : flds_place (w_blocks w) r A a (sp_end r (map vshape vs) (up pos (f_align f) + len xs * f_size f))).
    { repeat split; auto; lia. }
    step (IH Hwr w a vs cs _ A Hvs Hfp Hrs). reflexivity.
Qed.

Lemma calc_layout_ok t w a v : wf_ty t -> obj_at w t a v -> calc_layout t a w = Ok (sp_lay t (vshape v)) w.
Proof. intros Hwf (Hv & Hp & Hr). now apply calc_ok. Qed.

Lemma deref_ok t w a v : wf_ty t -> obj_at w t a v -> check_ref a (head_size t) (head_align t) w = Ok tt w.
Proof.
  intros Hwf (Hv & (P0 & Pm & PW & Pl) & Hr). apply check_ref_ok; auto.
  - eapply pow2_mod; [apply head_align_pow2; auto|exact (sp_align_pow2 t Hwf)|apply head_align_le; auto|exact Pm].
  - eapply live_pre; eauto. apply head_size_le; auto.
Qed.
