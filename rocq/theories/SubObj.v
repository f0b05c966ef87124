(** SubObj.v - references to nested variable-length parts of an object. *)
From Verif Require Export ProgSpec Sources.

Definition sub_res (w : world) (t : vty) (a : N) (v : vval) (p : path) (t' : vty) (v' : vval) : Prop :=
  exists o, subobject t a p w = Ok (t', a + o) w /\ wf_ty t' /\ obj_at w t' (a + o) v' /\ o + vsize t' v' <= vsize t v /\
    forall m' v'', same_outside (w_mem w) m' (a + o) (vsize t' v') -> vok t' v'' -> repr m' t' (a + o) v'' ->
      vshape v'' = vshape v' ->
      vok t (putsub v p v'') /\ vshape (putsub v p v'') = vshape v /\ repr m' t a (putsub v p v'').
Definition sub_fld_res (w : world) (fs : flds) (a : N) (vs : list vval) (cs : list (list cell)) (pos : N) (j : nat) (p : path)
    (v0 : vval) (t' : vty) (v' : vval) : Prop :=
  exists o, subobject_fld fs a (sp_tail fs (map vshape vs) pos) j p w = Ok (t', a + o) w /\ wf_ty t' /\
    obj_at w t' (a + o) v' /\ pos <= o /\ o + vsize t' v' <= sp_end fs (map vshape vs) pos /\
    forall m' v'', same_outside (w_mem w) m' (a + o) (vsize t' v') -> vok t' v'' -> repr m' t' (a + o) v'' ->
      vshape v'' = vshape v' ->
      let vs' := replace_nth vs j (putsub v0 p v'') in
      vok_flds fs vs' cs /\ map vshape vs' = map vshape vs /\ vctrls fs vs' = vctrls fs vs /\ repr_flds m' fs a vs' pos.

Lemma sub_here w t a v : wf_ty t -> obj_at w t a v -> sub_res w t a v PHere t v.
Proof.
  intros Hwf Ho. exists 0. rewrite N.add_0_r. split; [destruct t; reflexivity|]. split; [exact Hwf|]. split; [exact Ho|].
  split; [lia|]. intros m' v'' _ H1 H2 H3. cbn [putsub]. auto.
Qed.
Lemma sub_all :
  (forall t, wf_ty t -> forall w a v p t' v', obj_at w t a v -> subval t v p = Some (t', v') -> sub_res w t a v p t' v') /\
  (forall fs, wf_flds fs -> forall w a vs cs pos A hs j p t0 v0 t' v',
     hs <= pos -> hdr_in fs A hs ->
     vok_flds fs vs cs -> flds_place (w_blocks w) fs A a (sp_end fs (map vshape vs) pos) ->
     repr_flds (w_mem w) fs a vs pos ->
     varlen_field fs j = Some t0 -> nth_error vs j = Some v0 -> subval t0 v0 p = Some (t', v') ->
     sub_fld_res w fs a vs cs pos j p v0 t' v').
Proof.
  apply vty_flds_ind.
  - intros f Hwf w a v p t' v' Ho Hs. destruct p; try discriminate. injection Hs as <- <-. now apply sub_here.
  - intros f k Hwf w a v p t' v' Ho Hs. destruct p; try discriminate. injection Hs as <- <-. now apply sub_here.
  - intros t IH Hwf w a v p t' v' Ho Hs. destruct p; try discriminate; [injection Hs as <- <-; now apply sub_here|].
    destruct v as [| |v|]; try discriminate. destruct Ho as (Hv & Hp & Hr).
    exact (IH Hwf w a v p t' v' (conj Hv (conj Hp Hr)) Hs).
  - intros kd hs ha fs IH Hwf w a v p t' v' Ho Hs. destruct p as [| | |j p]; try discriminate; [injection Hs as <- <-; now apply sub_here|].
    destruct v as [| | |vs]; try discriminate. cbn [subval] in Hs.
    destruct (varlen_field fs j) as [t0|] eqn:Ef; [|discriminate]. destruct (nth_error vs j) as [v0|] eqn:Ev; [|discriminate].
    pose proof Ho as (Hv & Hp & Hr).
    assert (Hge : hs <= sp_end fs (map vshape vs) hs) by (apply sp_end_ge, Hwf).
    destruct (rec_place kd hs ha fs (w_blocks w) a _ Hwf Hp Hge) as [Hfp Hh].
    pose proof Hwf as HwfT. destruct Hwf as ((Q1 & Q2 & Q3 & Q4 & Q5) & Q6 & Q7).
    assert (Hh' : hdr_in fs (sp_align (TRec kd hs ha fs)) hs).
    { intros off g Hin. destruct (Q4 off g Hin) as (A1 & A2 & A3). repeat split; auto. cbn [sp_align]. lia. }
    destruct (IH Q6 w a vs _ hs _ hs j p t0 v0 t' v' (N.le_refl _) Hh' Hv Hfp Hr Ef Ev Hs) as (o & E & A1 & A2 & A3 & A4 & A5).
    exists o. split.
    { cbn [subobject]. step (calc_layout_ok (TRec kd hs ha fs) w a (VRec vs) HwfT Ho). cbn [vshape sp_lay]. exact E. }
    split; [exact A1|]. split; [exact A2|]. split; [exact A4|].
    intros m' v'' Hso Hv'' Hr'' Hsh. destruct (A5 m' v'' Hso Hv'' Hr'' Hsh) as (C1 & C2 & C3 & C4). cbv zeta in *.
    cbn [putsub]. rewrite Ev. cbn [vok vshape repr]. rewrite C3, C2. auto.
  - intros _ w a vs cs pos A hs j p t0 v0 t' v' _ _ _ _ _ Hf. destruct j; discriminate.
  - intros off f r IH [Hf Hwr] w a vs cs pos A hs j p t0 v0 t' v' Hpos Hh Hv Hp Hr Ef Ev Hs.
    destruct vs as [|[bs| | |] vs]; try contradiction. destruct j as [|j]; [discriminate|]. unfold sub_fld_res.
    cbn [vok_flds repr_flds map vshape sp_end sp_tail subobject_fld head_fields varlen_field nth_error] in *.
    destruct (fhdr_place _ (FNormal off f r) off f r A a _ eq_refl Hf ltac:(cbn [sp_falign]; lia) Hp
       (hdr_in_le _ _ _ (sp_end r (map vshape vs) pos) Hh ltac:(pose proof (sp_end_ge r Hwr (map vshape vs) pos); lia))) as (B1 & B2 & B3 & B4 & B5 & B6).
    destruct (Hh off f (or_introl eq_refl)) as (_ & Hoff & _). destruct Hr as [R1 R2]. destruct Hv as [V1 V2].
    assert (Hh' : hdr_in r A hs) by (eapply hdr_in_cons; [|exact Hh]; reflexivity).
    destruct (IH Hwr w a vs cs pos A hs j p t0 v0 t' v' Hpos Hh' V2 B5 R2 Ef Ev Hs) as (o & E & A1 & A2 & A3 & A4 & A5).
    exists o. split; [exact E|]. split; [exact A1|]. split; [exact A2|]. split; [exact A3|]. split; [exact A4|].
    intros m' v'' Hso Hv'' Hr'' Hsh. destruct (A5 m' v'' Hso Hv'' Hr'' Hsh) as (C1 & C2 & C3 & C4). cbv zeta in *.
    cbn [replace_nth vok_flds map vshape vctrls repr_flds]. rewrite C2, C3. split; [auto|]. split; [reflexivity|].
    split; [reflexivity|]. split; [|exact C4]. rewrite <- R1. apply rd_shift. intros i Hi. apply Hso. lia.
  - intros off f r IH [Hf Hwr] w a vs cs pos A hs j p t0 v0 t' v' Hpos Hh Hv Hp Hr Ef Ev Hs.
    destruct vs as [|[bs| | |] vs]; try contradiction. destruct j as [|j]; [discriminate|]. unfold sub_fld_res.
    cbn [vok_flds repr_flds map vshape sp_end sp_tail subobject_fld head_fields varlen_field nth_error] in *.
    destruct (fhdr_place _ (FLength off f r) off f r A a _ eq_refl Hf ltac:(cbn [sp_falign]; lia) Hp
       (hdr_in_le _ _ _ (sp_end r (map vshape vs) pos) Hh ltac:(pose proof (sp_end_ge r Hwr (map vshape vs) pos); lia))) as (B1 & B2 & B3 & B4 & B5 & B6).
    destruct (Hh off f (or_introl eq_refl)) as (_ & Hoff & _). destruct Hr as [R1 R2]. destruct Hv as [V1 V2].
    assert (Hh' : hdr_in r A hs) by (eapply hdr_in_cons; [|exact Hh]; reflexivity).
    destruct (IH Hwr w a vs cs pos A hs j p t0 v0 t' v' Hpos Hh' V2 B5 R2 Ef Ev Hs) as (o & E & A1 & A2 & A3 & A4 & A5).
    exists o. split; [exact E|]. split; [exact A1|]. split; [exact A2|]. split; [exact A3|]. split; [exact A4|].
    intros m' v'' Hso Hv'' Hr'' Hsh. destruct (A5 m' v'' Hso Hv'' Hr'' Hsh) as (C1 & C2 & C3 & C4). cbv zeta in *.
    cbn [replace_nth vok_flds map vshape vctrls repr_flds]. rewrite C2, C3. split; [auto|]. split; [reflexivity|].
    split; [reflexivity|]. split; [|exact C4]. rewrite <- R1. apply rd_shift. intros i Hi. apply Hso. lia.
  - intros t IHt r IH [Hwt Hwr] w a vs cs pos A hs j p t0 v0 t' v' Hpos Hh Hv Hp Hr Ef Ev Hs.
    destruct vs as [|u vs]; try contradiction. unfold sub_fld_res.
    cbn [vok_flds repr_flds map sp_tail head_fields varlen_field] in *.
    destruct (fvar_place _ _ _ _ _ _ _ _ Hwt Hwr Hp) as (B1 & B2 & B3).
    destruct Hr as [R1 R2]. destruct Hv as [V1 V2].
    pose proof (up_ge pos (sp_align t) (sp_align_pos _ Hwt)) as Hup.
    pose proof (sp_end_ge r Hwr (map vshape vs) (up pos (sp_align t) + sp_size t (vshape u))) as Hend.
    destruct j as [|j]; cbn [nth_error] in Ev.
    + injection Ef as <-. injection Ev as <-.
      destruct (IHt Hwt w _ u p t' v' (conj V1 (conj B2 R1)) Hs) as (o & E & A1 & A2 & A3 & A4).
      exists (up pos (sp_align t) + o). rewrite N.add_assoc. unfold vsize in A3 at 2.
      split. { cbn [subobject_fld]. rewrite wadd_small by auto. step (place_deref t w _ _ Hwt B2 (head_size_le t u Hwt V1)). exact E. }
      split; [exact A1|]. split; [exact A2|]. cbn [sp_end]. split; [lia|]. split; [lia|].
      intros m' v'' Hso Hv'' Hr'' Hsh. destruct (A4 m' v'' Hso Hv'' Hr'' Hsh) as (C1 & C2 & C3). cbv zeta.
      cbn [replace_nth vok_flds map vctrls repr_flds]. rewrite C2. split; [auto|]. split; [reflexivity|]. split; [reflexivity|].
      split; [exact C3|]. eapply (repr_flds_ext r Hwr (w_mem w)); eauto.
      * intros o' f' Hin. apply rd_shift. intros i Hi. apply Hso. destruct (Hh _ _ Hin) as (_ & Hx & _). lia.
      * intros i Hi _. apply Hso. lia.
    + destruct (IH Hwr w a vs cs (up pos (sp_align t) + sp_size t (vshape u)) A hs j p t0 v0 t' v' ltac:(lia) Hh V2 B3 R2 Ef Ev Hs)
        as (o & E & A1 & A2 & A3 & A4 & A5).
      exists o. split; [exact E|]. split; [exact A1|]. split; [exact A2|]. cbn [sp_end]. split; [lia|]. split; [lia|].
      intros m' v'' Hso Hv'' Hr'' Hsh. destruct (A5 m' v'' Hso Hv'' Hr'' Hsh) as (C1 & C2 & C3 & C4). cbv zeta in *.
      cbn [replace_nth vok_flds map vshape vctrls repr_flds]. rewrite C2, C3. split; [auto|]. split; [reflexivity|].
      split; [reflexivity|]. split; [|exact C4].
      eapply (repr_shift t (w_mem w)); [auto|auto| |exact R1]. intros i Hi. unfold vsize in Hi. apply Hso. lia.
  - intros f0 lf r IH (Hf & Hwr) w a vs cs pos A hs j p t0 v0 t' v' Hpos Hh Hv Hp Hr Ef Ev Hs.
    destruct vs as [|[|xs| |] vs]; try contradiction. destruct j as [|j]; [discriminate|]. unfold sub_fld_res.
    cbn [vok_flds repr_flds map vshape sp_tail head_fields varlen_field nth_error subobject_fld] in *.
    destruct (farr_place _ _ _ _ _ _ _ _ _ Hf Hwr Hp) as ((B1 & B2 & B3 & B4) & B5).
    destruct Hr as [R1 R2]. destruct Hv as (Vx & Vn & V2).
    pose proof (up_ge pos (f_align f0) (pow2_pos _ (proj1 Hf))) as Hup.
    pose proof (sp_end_ge r Hwr (map vshape vs) (up pos (f_align f0) + len xs * f_size f0)) as Hend.
    destruct (IH Hwr w a vs cs (up pos (f_align f0) + len xs * f_size f0) A hs j p t0 v0 t' v' ltac:(lia) Hh V2 B5 R2 Ef Ev Hs)
      as (o & E & A1 & A2 & A3 & A4 & A5).
    exists o. split; [exact E|]. split; [exact A1|]. split; [exact A2|]. cbn [sp_end]. split; [lia|]. split; [lia|].
    intros m' v'' Hso Hv'' Hr'' Hsh. destruct (A5 m' v'' Hso Hv'' Hr'' Hsh) as (C1 & C2 & C3 & C4). cbv zeta in *.
    cbn [replace_nth vok_flds map vshape vctrls repr_flds]. rewrite C2, C3. split; [auto|]. split; [reflexivity|].
    split; [reflexivity|]. split; [|exact C4]. rewrite <- R1. apply rd_shift. intros i Hi. apply Hso. lia.
Qed.
(** Locating the elements of an array. *)
Lemma field_slice_ok fs : wf_flds fs -> forall w a vs cs pos A hs j f xs,
  hs <= pos -> hdr_in fs A hs -> vok_flds fs vs cs -> flds_place (w_blocks w) fs A a (sp_end fs (map vshape vs) pos) ->
  repr_flds (w_mem w) fs a vs pos -> array_field fs j = Some f -> nth_error vs j = Some (VArr xs) ->
  exists o, field_slice fs a (sp_tail fs (map vshape vs) pos) j w = Ok (f, a + o, len xs) w /\ fty_ok f /\ elems_ok f xs /\
    o + len xs * f_size f <= sp_end fs (map vshape vs) pos /\ a + o < W /\ a + o <> 0 /\ (a + o) mod f_align f = 0 /\
    live (w_blocks w) (a + o) (len xs * f_size f) /\ rd (w_mem w) (a + o) (len xs * f_size f) = concat xs.
Proof.
  induction fs as [|off g r IH|off g r IH|t r IH|g lf r IH]; intros Hwf w a vs cs pos A hs j f xs Hpos Hh Hv Hp Hr Ef Ev.
  - destruct j; discriminate.
  - destruct Hwf as [Hf Hwr]. destruct vs as [|[bs| | |] vs]; try contradiction. destruct j as [|j]; [discriminate|].
    cbn [vok_flds repr_flds map vshape sp_end sp_tail field_slice array_field nth_error] in *.
    destruct (fhdr_place _ (FNormal off g r) off g r A a _ eq_refl Hf ltac:(cbn [sp_falign]; lia) Hp
       (hdr_in_le _ _ _ (sp_end r (map vshape vs) pos) Hh ltac:(pose proof (sp_end_ge r Hwr (map vshape vs) pos); lia))) as (B1 & B2 & B3 & B4 & B5 & B6).
    assert (Hh' : hdr_in r A hs) by (eapply hdr_in_cons; [|exact Hh]; reflexivity).
    exact (IH Hwr w a vs cs pos A hs j f xs Hpos Hh' (proj2 Hv) B5 (proj2 Hr) Ef Ev).
  - destruct Hwf as [Hf Hwr]. destruct vs as [|[bs| | |] vs]; try contradiction. destruct j as [|j]; [discriminate|].
    cbn [vok_flds repr_flds map vshape sp_end sp_tail field_slice array_field nth_error] in *.
    destruct (fhdr_place _ (FLength off g r) off g r A a _ eq_refl Hf ltac:(cbn [sp_falign]; lia) Hp
       (hdr_in_le _ _ _ (sp_end r (map vshape vs) pos) Hh ltac:(pose proof (sp_end_ge r Hwr (map vshape vs) pos); lia))) as (B1 & B2 & B3 & B4 & B5 & B6).
    assert (Hh' : hdr_in r A hs) by (eapply hdr_in_cons; [|exact Hh]; reflexivity).
    exact (IH Hwr w a vs cs pos A hs j f xs Hpos Hh' (proj2 Hv) B5 (proj2 Hr) Ef Ev).
  - destruct Hwf as [Hwt Hwr]. destruct vs as [|u vs]; try contradiction. destruct j as [|j]; [discriminate|].
    cbn [vok_flds repr_flds map sp_tail array_field nth_error field_slice] in *.
    destruct (fvar_place _ _ _ _ _ _ _ _ Hwt Hwr Hp) as (B1 & B2 & B3).
    pose proof (up_ge pos (sp_align t) (sp_align_pos _ Hwt)) as Hup. cbn [sp_end].
    exact (IH Hwr w a vs cs (up pos (sp_align t) + sp_size t (vshape u)) A hs j f xs ltac:(lia) Hh (proj2 Hv) B3 (proj2 Hr) Ef Ev).
  - destruct Hwf as (Hf & Hwr). destruct vs as [|[|ys| |] vs]; try contradiction.
    cbn [vok_flds repr_flds map vshape sp_tail array_field nth_error field_slice] in *.
    destruct (farr_place _ _ _ _ _ _ _ _ _ Hf Hwr Hp) as ((B1 & B2 & B3 & B4) & B5).
    destruct Hr as [R1 R2]. destruct Hv as (Vx & Vn & V2). cbn [sp_end].
    pose proof (up_ge pos (f_align g) (pow2_pos _ (proj1 Hf))) as Hup.
    pose proof (sp_end_ge r Hwr (map vshape vs) (up pos (f_align g) + len ys * f_size g)) as Hend.
    destruct j as [|j]; cbn [array_field nth_error field_slice] in *.
    + injection Ef as ->. injection Ev as ->. exists (up pos (f_align f)).
      split; [unfold ref_slice; rewrite wadd_small by auto; now step (check_ref_ok w _ _ _ B2 B3 B4)|]. repeat split; auto; try lia; apply Hf.
    + exact (IH Hwr w a vs cs (up pos (f_align g) + len ys * f_size g) A hs j f xs ltac:(lia) Hh V2 B5 R2 Ef Ev).
Qed.
Lemma array_slice_ok t w a v j f xs : wf_ty t -> obj_at w t a v -> elements t v j = Some (f, xs) ->
  exists o, array_slice t a j w = Ok (f, a + o, len xs) w /\ fty_ok f /\ elems_ok f xs /\ len xs < W /\
    o + len xs * f_size f <= vsize t v /\ a + vsize t v < W /\ a + o <> 0 /\ (a + o) mod f_align f = 0 /\
    live (w_blocks w) (a + o) (len xs * f_size f) /\ rd (w_mem w) (a + o) (len xs * f_size f) = concat xs.
Proof.
  intros Hwf Ho He. unfold array_slice. step (calc_layout_ok t w a v Hwf Ho). pose proof Ho as (Hv & Hp & Hr).
  destruct t as [|g k| |kd hs ha fs], v as [|ys| |vs]; try discriminate; destruct j as [j|]; try discriminate; cbn [elements] in He.
  - injection He as -> ->. cbn [vshape sp_lay vok repr wf_ty] in *.
    destruct (arr_place _ _ _ _ _ Hwf Hp) as (B1 & B2 & B3 & B4). destruct Hp as (_ & _ & PW & _).
    exists (up (len_size k) (f_align f)). split; [unfold ref_slice; rewrite wadd_small by auto; now step (check_ref_ok w _ _ _ B2 B3 B4)|].
    assert (len xs < W) by (eapply N.lt_le_trans; [apply Hv|]; rewrite W_eq; destruct k; vm_compute; discriminate).
    unfold vsize in *; cbn [vshape sp_size] in *. repeat split; auto; try lia; try apply Hwf; try apply Hv; apply Hr.
  - destruct (array_field fs j) as [g|] eqn:Ef; [|discriminate]. destruct (nth_error vs j) as [[|ys| |]|] eqn:Ev; try discriminate.
    injection He as -> ->. cbn [vshape sp_lay].
    assert (Hge : hs <= sp_end fs (map vshape vs) hs) by (apply sp_end_ge, Hwf).
    destruct (rec_place kd hs ha fs (w_blocks w) a _ Hwf Hp Hge) as [Hfp Hh].
    pose proof Hwf as HwfT. destruct Hwf as ((Q1 & Q2 & Q3 & Q4 & Q5) & Q6 & Q7).
    assert (Hh' : hdr_in fs (sp_align (TRec kd hs ha fs)) hs).
    { intros off g Hin. destruct (Q4 off g Hin) as (A1 & A2 & A3). repeat split; auto. cbn [sp_align]. lia. }
    destruct (field_slice_ok fs Q6 w a vs _ hs _ hs j f xs (N.le_refl _) Hh' Hv Hfp Hr Ef Ev) as (o & E & A1 & A2 & A3 & A4 & A5 & A6 & A7 & A8).
    exists o. split; [exact E|].
    assert (Hn : len xs < W).
    { clear -Hv Ef Ev. cbn [vok] in Hv. revert Hv. generalize (vctrls fs vs). revert vs j Ef Ev. induction fs as [|off g r IH|off g r IH|t r IH|g lf r IH]; intros vs j Ef Ev cs Hv;
        destruct j as [|j]; try discriminate; destruct vs as [|u vs]; try discriminate; cbn [array_field nth_error vok_flds] in *.
      - destruct u; try contradiction. eapply IH; eauto. apply Hv.
      - destruct u; try contradiction. eapply IH; eauto. apply Hv.
      - eapply IH; eauto. apply Hv.
      - injection Ev as ->. destruct Hv as (_ & Hn & _). destruct Hn as [Hn1 Hn2]. lia.
      - destruct u; try contradiction. eapply IH; eauto. apply Hv. }
    destruct Hp as (_ & _ & PW & _). unfold vsize in *. cbn [vshape sp_size] in *. repeat split; auto; apply A1.
Qed.
(** Locating a part. *)
Lemma sub_ok t w a v p t' v' : wf_ty t -> obj_at w t a v -> subval t v p = Some (t', v') ->
  exists o, subobject t a p w = Ok (t', a + o) w /\ wf_ty t' /\ obj_at w t' (a + o) v' /\ o + vsize t' v' <= vsize t v /\
    forall w' v'', w_blocks w' = w_blocks w -> same_outside (w_mem w) (w_mem w') (a + o) (vsize t' v') ->
      obj_at w' t' (a + o) v'' -> vshape v'' = vshape v' ->
      obj_at w' t a (putsub v p v'') /\ vshape (putsub v p v'') = vshape v.
Proof.
  intros Hwf Ho Hs. destruct (proj1 sub_all t Hwf w a v p t' v' Ho Hs) as (o & E & A1 & A2 & A3 & A4).
  exists o. split; [exact E|]. split; [exact A1|]. split; [exact A2|]. split; [exact A3|].
  intros w' v'' Hb Hso (Hv'' & _ & Hr'') Hsh. destruct (A4 (w_mem w') v'' Hso Hv'' Hr'' Hsh) as (C1 & C2 & C3).
  split; [|exact C2]. destruct Ho as (_ & Hp & _). split; [exact C1|]. unfold vsize. rewrite C2, Hb. split; [exact Hp|exact C3].
Qed.
