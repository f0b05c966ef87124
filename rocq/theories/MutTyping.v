(** MutTyping.v - paths that are not mutable are rejected. *)
From Verif Require Export Locate.

Lemma locate_none_all :
  (forall t, wf_ty t -> forall w a v p, obj_at w t a v -> mut_leaf t p = None -> locate t a p w = UB UType) /\
  (forall fs, wf_flds fs -> ForallOrdPairs hf_disjoint (head_fields fs) -> forall w a vs cs pos A hs j p,
     hs <= pos -> hdr_in fs A hs ->
     vok_flds fs vs cs -> flds_place (w_blocks w) fs A a (sp_end fs (map vshape vs) pos) ->
     repr_flds (w_mem w) fs a vs pos -> mut_leaf_fld fs j p = None ->
     locate_fld fs a (sp_tail fs (map vshape vs) pos) j p w = UB UType).
Proof.
  apply vty_flds_ind.
  - intros f Hwf w a v p Ho Hm. destruct p; try reflexivity. discriminate.
  - intros f k Hwf w a v p Ho Hm. destruct p; try reflexivity. discriminate.
  - intros t IH Hwf w a v p Ho Hm. pose proof Ho as (Hv & Hp & Hr). destruct v as [| |v|]; try contradiction. destruct p; try reflexivity.
    exact (IH Hwf w a v p (conj Hv (conj Hp Hr)) Hm).
  - intros kd hs ha fs IH Hwf w a v p Ho Hm. pose proof Ho as (Hv & Hp & Hr). destruct v as [| | |vs]; try contradiction.
    destruct p as [| | |j p]; try reflexivity. cbn [mut_leaf] in Hm.
    assert (Hge : hs <= sp_end fs (map vshape vs) hs) by (apply sp_end_ge, Hwf).
    destruct (rec_place kd hs ha fs (w_blocks w) a _ Hwf Hp Hge) as [Hfp Hh].
    destruct Hwf as ((Q1 & Q2 & Q3 & Q4 & Q5) & Q6 & Q7).
    assert (Hh' : hdr_in fs (sp_align (TRec kd hs ha fs)) hs).
    { intros off g Hin. destruct (Q4 off g Hin) as (A1 & A2 & A3). repeat split; auto. cbn [sp_align]. lia. }
    pose proof (IH Q6 Q5 w a vs _ hs _ hs j p (N.le_refl _) Hh' Hv Hfp Hr Hm) as H.
    cbn [locate].
    step (calc_layout_ok (TRec kd hs ha fs) w a (VRec vs) (conj (conj Q1 (conj Q2 (conj Q3 (conj Q4 Q5)))) (conj Q6 Q7)) Ho).
    exact H.
  - intros _ _ w a vs cs pos A hs j p _ _ _ _ _ Hm. destruct j; reflexivity.
  - intros off f r IH [Hf Hwr] Hdj w a vs cs pos A hs j p Hpos Hh Hv Hp Hr Hm.
    destruct vs as [|[bs| | |] vs]; try contradiction.
    cbn [vok_flds repr_flds map vshape sp_end sp_tail locate_fld head_fields mut_leaf_fld] in *.
    inversion Hdj as [|x l Hd Hdr]; subst x l.
    destruct (fhdr_place _ (FNormal off f r) off f r A a _ eq_refl Hf ltac:(cbn [sp_falign]; lia) Hp
       (hdr_in_le _ _ _ (sp_end r (map vshape vs) pos) Hh ltac:(pose proof (sp_end_ge r Hwr (map vshape vs) pos); lia))) as (B1 & B2 & B3 & B4 & B5 & B6).
    destruct j as [|j]; [destruct p; try reflexivity; discriminate|].
    apply (IH Hwr Hdr w a vs cs pos A hs j p Hpos); try tauto. eapply hdr_in_cons; [|exact Hh]; reflexivity.
  - intros off f r IH [Hf Hwr] Hdj w a vs cs pos A hs j p Hpos Hh Hv Hp Hr Hm.
    destruct vs as [|[bs| | |] vs]; try contradiction.
    cbn [vok_flds repr_flds map vshape sp_end sp_tail locate_fld head_fields mut_leaf_fld] in *.
    inversion Hdj as [|x l Hd Hdr]; subst x l.
    destruct (fhdr_place _ (FLength off f r) off f r A a _ eq_refl Hf ltac:(cbn [sp_falign]; lia) Hp
       (hdr_in_le _ _ _ (sp_end r (map vshape vs) pos) Hh ltac:(pose proof (sp_end_ge r Hwr (map vshape vs) pos); lia))) as (B1 & B2 & B3 & B4 & B5 & B6).
    destruct j as [|j]; [reflexivity|].
    apply (IH Hwr Hdr w a vs cs pos A hs j p Hpos); try tauto. eapply hdr_in_cons; [|exact Hh]; reflexivity.
  - intros t IHt r IH [Hwt Hwr] Hdj w a vs cs pos A hs j p Hpos Hh Hv Hp Hr Hm.
    destruct vs as [|v0 vs]; try contradiction. cbn [vok_flds repr_flds map sp_tail head_fields mut_leaf_fld] in *.
    destruct (fvar_place _ _ _ _ _ _ _ _ Hwt Hwr Hp) as (B1 & B2 & B3).
    destruct Hr as [R1 R2]. destruct Hv as [V1 V2].
    pose proof (up_ge pos (sp_align t) (sp_align_pos _ Hwt)) as Hup.
    destruct j as [|j].
    + cbn [locate_fld]. rewrite wadd_small by auto. step (place_deref t w _ _ Hwt B2 (head_size_le t v0 Hwt V1)).
      exact (IHt Hwt w _ v0 p (conj V1 (conj B2 R1)) Hm).
    + cbn [locate_fld]. apply (IH Hwr Hdj w a vs cs (up pos (sp_align t) + sp_size t (vshape v0)) A hs j p ltac:(lia) Hh V2 B3 R2 Hm).
  - intros f0 lf r IH (Hf & Hwr) Hdj w a vs cs pos A hs j p Hpos Hh Hv Hp Hr Hm.
    destruct vs as [|[|xs| |] vs]; try contradiction. cbn [vok_flds repr_flds map vshape sp_tail head_fields mut_leaf_fld] in *.
    destruct (farr_place _ _ _ _ _ _ _ _ _ Hf Hwr Hp) as ((B1 & B2 & B3 & B4) & B5).
    destruct Hr as [R1 R2]. destruct Hv as (Vx & Vn & V2).
    pose proof (up_ge pos (f_align f0) (pow2_pos _ (proj1 Hf))) as Hup.
    destruct j as [|j]; [destruct p; try reflexivity; discriminate|].
    cbn [locate_fld]. apply (IH Hwr Hdj w a vs cs (up pos (f_align f0) + len xs * f_size f0) A hs j p ltac:(lia) Hh V2 B5 R2 Hm).
Qed.
Lemma assign_none t w a v p new : wf_ty t -> obj_at w t a v -> mut_leaf t p = None -> assign t a p new w = UB UType.
Proof. intros Hwf Ho Hm. unfold assign, bind. now rewrite (proj1 locate_none_all t Hwf w a v p Ho Hm). Qed.
