(** CellProofs.v - interior mutability and swapped headers. *)
From Verif Require Export CellSpec Places ProgSteps.
From Verif Require Import PropsMut.

(** ** values of the right structure *)
Fixpoint sok (t : vty) (v : vval) : Prop :=
  match t, v with
  | TFixed f, VFix bs => len bs = f_size f
  | TArray f k, VArr xs => elems_ok f xs /\ len xs < len_lim k
  | TNew t, VNew v => sok t v
  | TRec _ _ _ fs, VRec vs => sok_flds fs vs
  | _, _ => False
  end
with sok_flds (fs : flds) (vs : list vval) : Prop :=
  match fs, vs with
  | FNil, [] => True
  | FNormal _ f r, VFix bs :: vs' | FLength _ f r, VFix bs :: vs' => len bs = f_size f /\ sok_flds r vs'
  | FVar t r, v :: vs' => sok t v /\ sok_flds r vs'
  | FArr f _ r, VArr xs :: vs' => elems_ok f xs /\ len xs < W /\ sok_flds r vs'
  | _, _ => False
  end.
Lemma vok_sok_all : (forall t v, vok t v -> sok t v) /\ (forall fs vs cs, vok_flds fs vs cs -> sok_flds fs vs).
Proof.
  apply vty_flds_ind.
  - intros f v H. exact H.
  - intros f k v H. exact H.
  - intros t IH v H. destruct v; try contradiction. exact (IH v H).
  - intros kd hs ha fs IH v H. destruct v; try contradiction. exact (IH vs _ H).
  - intros vs cs H. exact H.
  - intros off f r IH vs cs H. destruct vs as [|[] vs]; try contradiction. destruct H as [H1 H2]. split; [exact H1|exact (IH vs cs H2)].
  - intros off f r IH vs cs H. destruct vs as [|[] vs]; try contradiction. destruct H as [H1 H2]. split; [exact H1|exact (IH vs cs H2)].
  - intros t IHt r IH vs cs H. destruct vs as [|v vs]; try contradiction. destruct H as [H1 H2]. split; [exact (IHt v H1)|exact (IH vs cs H2)].
  - intros f lf r IH vs cs H. destruct vs as [|[] vs]; try contradiction. destruct H as (H1 & [H2 H3] & H4). split; [exact H1|]. split; [lia|exact (IH vs cs H4)].
Qed.
Lemma vok_sok t v : vok t v -> sok t v.
Proof. apply vok_sok_all. Qed.
Lemma vok_sok_flds fs vs cs : vok_flds fs vs cs -> sok_flds fs vs.
Proof. apply vok_sok_all. Qed.

(** ** locating a leaf through shared references *)
Definition lref_ok (w : world) (t : vty) (a : N) (v : vval) (p : path) (f : fty) : Prop :=
  match leaf v p with
  | None => locate_ref t a p w = Panic w
  | Some old => exists o, locate_ref t a p w = Ok (a + o, f) w /\ fty_ok f /\ o + f_size f <= vsize t v /\
      (a + o) mod f_align f = 0 /\ rd (w_mem w) (a + o) (f_size f) = old /\
      forall new, len new = f_size f ->
        sok t (put v p new) /\ vshape (put v p new) = vshape v /\ repr (wr (w_mem w) (a + o) new) t a (put v p new)
  end.
Definition lref_fld_ok (w : world) (fs : flds) (a : N) (vs : list vval) (cs : list (list cell)) (pos : N) (j : nat) (p : path) (f : fty) : Prop :=
  exists v, nth_error vs j = Some v /\
  match leaf v p with
  | None => locate_ref_fld fs a (sp_tail fs (map vshape vs) pos) j p w = Panic w
  | Some old => exists o, locate_ref_fld fs a (sp_tail fs (map vshape vs) pos) j p w = Ok (a + o, f) w /\
      fty_ok f /\ (In (o, f) (head_fields fs) \/ (pos <= o /\ o + f_size f <= sp_end fs (map vshape vs) pos)) /\
      (a + o) mod f_align f = 0 /\ rd (w_mem w) (a + o) (f_size f) = old /\
      forall new, len new = f_size f ->
        let vs' := replace_nth vs j (put v p new) in
        sok_flds fs vs' /\ map vshape vs' = map vshape vs /\
        repr_flds (wr (w_mem w) (a + o) new) fs a vs' pos
  end.
Lemma locate_ref_all :
  (forall t, wf_ty t -> forall w a v p f, obj_at w t a v -> ref_leaf t p = Some f -> lref_ok w t a v p f) /\
  (forall fs, wf_flds fs -> ForallOrdPairs hf_disjoint (head_fields fs) -> forall w a vs cs pos A hs j p f,
     hs <= pos -> hdr_in fs A hs ->
     vok_flds fs vs cs -> flds_place (w_blocks w) fs A a (sp_end fs (map vshape vs) pos) ->
     repr_flds (w_mem w) fs a vs pos -> ref_leaf_fld fs j p = Some f -> lref_fld_ok w fs a vs cs pos j p f).
Proof.
  apply vty_flds_ind.
  - intros f Hwf w a v p g (Hv & Hp & Hr) Hm. destruct v; try contradiction. destruct p; try discriminate.
    injection Hm as <-. cbn [vok repr] in *. destruct Hp as (P0 & Pm & PW & Pl).
    exists 0. rewrite !N.add_0_r. cbn [locate_ref sp_align] in *. unfold vsize in *; cbn [vshape sp_size] in *.
    split; [reflexivity|]. split; [exact Hwf|]. split; [lia|]. split; [exact Pm|]. split; [exact Hr|].
    intros new Hn. cbn [put sok repr vshape]. split; [exact Hn|]. split; [reflexivity|]. rewrite <- Hn. apply rd_wr_same.
  - intros f k Hwf w a v p g Ho Hm. pose proof Ho as (Hv & Hp & Hr). destruct v as [|xs| |]; try contradiction.
    destruct p; try discriminate. injection Hm as <-. unfold lref_ok. cbn [leaf locate_ref].
    step (calc_layout_ok (TArray f k) w a (VArr xs) Hwf Ho). cbn [vshape sp_lay repr vok] in *.
    destruct (arr_place _ _ _ _ _ Hwf Hp) as (B1 & B2 & B3 & B4). destruct Hv as [Hx Hk]. destruct Hr as [R1 R2].
    rewrite (elem_mut_ok f a _ xs i w _ Hwf B1 B2 B3 B4 eq_refl).
    destruct (nth_error xs (N.to_nat i)) as [old|] eqn:E.
    + pose proof (nth_error_Some_len _ _ _ E) as Hi. destruct (N.ltb_spec i (len xs)); [|lia].
      exists (up (len_size k) (f_align f) + i * f_size f). rewrite N.add_assoc.
      destruct (elem_place f _ (len xs) (w_blocks w) i Hwf B2 B3 B4 Hi) as (C1 & C2 & C3).
      split; [reflexivity|]. split; [exact Hwf|]. unfold vsize; cbn [vshape sp_size].
      split; [nia|]. split; [exact C2|]. split; [eapply arr_elem; eauto|].
      intros new Hn. cbn [put sok repr vshape]. rewrite len_replace. split; [split; auto; now apply elems_replace|].
      split; [reflexivity|]. split.
      * rewrite rd_wr_out; [exact R1|]. pose proof (up_ge (len_size k) (f_align f) (pow2_pos _ (proj1 Hwf))). unfold apart. lia.
      * apply arr_put; auto.
    + apply nth_error_None_len in E. destruct (N.ltb_spec i (len xs)); [lia|reflexivity].
  - intros t IH Hwf w a v p f (Hv & Hp & Hr) Hm. destruct v as [| |v|]; try contradiction. destruct p; try discriminate.
    exact (IH Hwf w a v p f (conj Hv (conj Hp Hr)) Hm).
  - intros kd hs ha fs IH Hwf w a v p f Ho Hm. pose proof Ho as (Hv & Hp & Hr). destruct v as [| | |vs]; try contradiction.
    destruct p as [| | |j p]; try discriminate. cbn [ref_leaf] in Hm.
    assert (Hge : hs <= sp_end fs (map vshape vs) hs) by (apply sp_end_ge, Hwf).
    destruct (rec_place kd hs ha fs (w_blocks w) a _ Hwf Hp Hge) as [Hfp Hh].
    destruct Hwf as ((Q1 & Q2 & Q3 & Q4 & Q5) & Q6 & Q7).
    assert (Hh' : hdr_in fs (sp_align (TRec kd hs ha fs)) hs).
    { intros off g Hin. destruct (Q4 off g Hin) as (A1 & A2 & A3). repeat split; auto. cbn [sp_align]. lia. }
    destruct (IH Q6 Q5 w a vs _ hs _ hs j p f (N.le_refl _) Hh' Hv Hfp Hr Hm) as (v & Ev & H).
    unfold lref_ok. cbn [leaf locate_ref put]. rewrite Ev.
    step (calc_layout_ok (TRec kd hs ha fs) w a (VRec vs) (conj (conj Q1 (conj Q2 (conj Q3 (conj Q4 Q5)))) (conj Q6 Q7)) Ho).
    cbn [vshape sp_lay]. destruct (leaf v p) as [old|]; [|exact H].
    destruct H as (o & E & A1 & A2 & A3 & A4 & A5). exists o. split; [exact E|]. split; [exact A1|].
    split. { unfold vsize; cbn [vshape sp_size]. destruct A2 as [A2|A2]; [|lia]. destruct (Hh' _ _ A2) as (_ & A & _). lia. }
    split; [exact A3|]. split; [exact A4|]. intros new Hn. destruct (A5 new Hn) as (C1 & C2 & C4).
    cbn [sok vshape repr]. rewrite C2. auto.
  - intros _ _ w a vs cs pos A hs j p f _ _ _ _ _ Hm. destruct j; discriminate.
  - intros off f r IH [Hf Hwr] Hdj w a vs cs pos A hs j p g Hpos Hh Hv Hp Hr Hm.
    destruct vs as [|[bs| | |] vs]; try contradiction.
    cbn [vok_flds repr_flds map vshape sp_end sp_tail locate_ref_fld head_fields ref_leaf_fld] in *.
    inversion Hdj as [|x l Hd Hdr]; subst x l. rewrite Forall_forall in Hd.
    destruct (fhdr_place _ (FNormal off f r) off f r A a _ eq_refl Hf ltac:(cbn [sp_falign]; lia) Hp
       (hdr_in_le _ _ _ (sp_end r (map vshape vs) pos) Hh ltac:(pose proof (sp_end_ge r Hwr (map vshape vs) pos); lia))) as (B1 & B2 & B3 & B4 & B5 & B6).
    destruct (Hh off f (or_introl eq_refl)) as (_ & Hoff & _).
    destruct Hr as [R1 R2]. destruct Hv as [V1 V2]. destruct j as [|j].
    + destruct p; try discriminate. injection Hm as <-. eexists. split; [reflexivity|]. cbn [leaf].
      exists off. cbn [locate_ref_fld]. rewrite wadd_small by auto.
      split; [reflexivity|]. split; [exact Hf|]. split; [left; left; reflexivity|]. split; [exact B3|]. split; [exact R1|].
      intros new Hn. cbv zeta. cbn [put replace_nth sok_flds map vshape repr_flds].
      split; [split; [exact Hn|eapply vok_sok_flds; eauto]|]. split; [reflexivity|]. split; [rewrite <- Hn; apply rd_wr_same|].
      eapply (repr_flds_ext r Hwr (w_mem w)); eauto.
      * intros o' f' Hin. apply rd_wr_out. specialize (Hd _ Hin). unfold hf_disjoint in Hd. cbn [fst snd] in Hd. unfold apart. lia.
      * intros i Hi _. apply wr_out. lia.
    + assert (Hh' : hdr_in r A hs) by (eapply hdr_in_cons; [|exact Hh]; reflexivity).
      destruct (IH Hwr Hdr w a vs cs pos A hs j p g Hpos Hh' V2 B5 R2 Hm) as (v & Ev & H).
      exists v. split; [exact Ev|]. cbn [locate_ref_fld sp_tail map vshape]. destruct (leaf v p) as [old|]; [|exact H].
      destruct H as (o & E & A1 & A2 & A3 & A4 & A5). exists o. split; [exact E|]. split; [exact A1|].
      split; [destruct A2 as [A2|A2]; [left; right; exact A2|right; exact A2]|]. split; [exact A3|]. split; [exact A4|].
      intros new Hn. destruct (A5 new Hn) as (C1 & C2 & C4). cbv zeta in *.
      cbn [replace_nth sok_flds map vshape repr_flds]. rewrite C2. split; [split; [exact V1|exact C1]|]. split; [reflexivity|].
      split; [|exact C4]. rewrite rd_wr_out; [exact R1|]. unfold apart.
      destruct A2 as [A2|A2]; [|lia]. specialize (Hd _ A2). unfold hf_disjoint in Hd. cbn [fst snd] in Hd. lia.
  - intros off f r IH [Hf Hwr] Hdj w a vs cs pos A hs j p g Hpos Hh Hv Hp Hr Hm.
    destruct vs as [|[bs| | |] vs]; try contradiction.
    cbn [vok_flds repr_flds map vshape sp_end sp_tail locate_ref_fld head_fields ref_leaf_fld] in *.
    inversion Hdj as [|x l Hd Hdr]; subst x l. rewrite Forall_forall in Hd.
    destruct (fhdr_place _ (FLength off f r) off f r A a _ eq_refl Hf ltac:(cbn [sp_falign]; lia) Hp
       (hdr_in_le _ _ _ (sp_end r (map vshape vs) pos) Hh ltac:(pose proof (sp_end_ge r Hwr (map vshape vs) pos); lia))) as (B1 & B2 & B3 & B4 & B5 & B6).
    destruct (Hh off f (or_introl eq_refl)) as (_ & Hoff & _).
    destruct Hr as [R1 R2]. destruct Hv as [V1 V2]. destruct j as [|j].
    + destruct p; try discriminate. injection Hm as <-. eexists. split; [reflexivity|]. cbn [leaf].
      exists off. cbn [locate_ref_fld]. rewrite wadd_small by auto.
      split; [reflexivity|]. split; [exact Hf|]. split; [left; left; reflexivity|]. split; [exact B3|]. split; [exact R1|].
      intros new Hn. cbv zeta. cbn [put replace_nth sok_flds map vshape repr_flds].
      split; [split; [exact Hn|eapply vok_sok_flds; eauto]|]. split; [reflexivity|]. split; [rewrite <- Hn; apply rd_wr_same|].
      eapply (repr_flds_ext r Hwr (w_mem w)); eauto.
      * intros o' f' Hin. apply rd_wr_out. specialize (Hd _ Hin). unfold hf_disjoint in Hd. cbn [fst snd] in Hd. unfold apart. lia.
      * intros i Hi _. apply wr_out. lia.
    + assert (Hh' : hdr_in r A hs) by (eapply hdr_in_cons; [|exact Hh]; reflexivity).
      destruct (IH Hwr Hdr w a vs cs pos A hs j p g Hpos Hh' V2 B5 R2 Hm) as (v & Ev & H).
      exists v. split; [exact Ev|]. cbn [locate_ref_fld sp_tail map vshape]. destruct (leaf v p) as [old|]; [|exact H].
      destruct H as (o & E & A1 & A2 & A3 & A4 & A5). exists o. split; [exact E|]. split; [exact A1|].
      split; [destruct A2 as [A2|A2]; [left; right; exact A2|right; exact A2]|]. split; [exact A3|]. split; [exact A4|].
      intros new Hn. destruct (A5 new Hn) as (C1 & C2 & C4). cbv zeta in *.
      cbn [replace_nth sok_flds map vshape repr_flds]. rewrite C2. split; [split; [exact V1|exact C1]|]. split; [reflexivity|].
      split; [|exact C4]. rewrite rd_wr_out; [exact R1|]. unfold apart.
      destruct A2 as [A2|A2]; [|lia]. specialize (Hd _ A2). unfold hf_disjoint in Hd. cbn [fst snd] in Hd. lia.
  - intros t IHt r IH [Hwt Hwr] Hdj w a vs cs pos A hs j p g Hpos Hh Hv Hp Hr Hm.
    destruct vs as [|v0 vs]; try contradiction. cbn [vok_flds repr_flds map sp_tail head_fields ref_leaf_fld] in *.
    destruct (fvar_place _ _ _ _ _ _ _ _ Hwt Hwr Hp) as (B1 & B2 & B3).
    destruct Hr as [R1 R2]. destruct Hv as [V1 V2].
    pose proof (up_ge pos (sp_align t) (sp_align_pos _ Hwt)) as Hup.
    pose proof (sp_end_ge r Hwr (map vshape vs) (up pos (sp_align t) + sp_size t (vshape v0))) as Hend.
    destruct j as [|j].
    + pose proof (IHt Hwt w _ v0 p g (conj V1 (conj B2 R1)) Hm) as H. unfold lref_ok in H.
      exists v0. split; [reflexivity|]. cbn [locate_ref_fld map sp_tail]. rewrite wadd_small by auto.
      destruct (leaf v0 p) as [old|].
      2:{ now step (place_deref t w _ _ Hwt B2 (head_size_le t v0 Hwt V1)). }
      destruct H as (o & E & A1 & A2 & A3 & A4 & A5). exists (up pos (sp_align t) + o). rewrite N.add_assoc.
      unfold vsize in A2.
      split; [step (place_deref t w _ _ Hwt B2 (head_size_le t v0 Hwt V1)); exact E|]. split; [exact A1|].
      cbn [sp_end]. split; [right; lia|]. split; [exact A3|]. split; [exact A4|].
      intros new Hn. destruct (A5 new Hn) as (C1 & C2 & C3). cbv zeta.
      cbn [replace_nth sok_flds map repr_flds]. rewrite C2. split; [split; [exact C1|eapply vok_sok_flds; eauto]|]. split; [reflexivity|].
      split; [exact C3|]. eapply (repr_flds_ext r Hwr (w_mem w)); eauto.
      * intros o' f' Hin. apply rd_wr_out. destruct (Hh _ _ Hin) as (_ & Hx & _). unfold apart. lia.
      * intros i Hi _. apply wr_out. lia.
    + destruct (IH Hwr Hdj w a vs cs (up pos (sp_align t) + sp_size t (vshape v0)) A hs j p g ltac:(lia) Hh V2 B3 R2 Hm) as (v & Ev & H).
      exists v. split; [exact Ev|]. cbn [locate_ref_fld sp_tail map vshape]. destruct (leaf v p) as [old|]; [|exact H].
      destruct H as (o & E & A1 & A2 & A3 & A4 & A5). exists o. split; [exact E|]. split; [exact A1|]. cbn [sp_end].
      split; [destruct A2 as [A2|A2]; [left; exact A2|right; lia]|]. split; [exact A3|]. split; [exact A4|].
      intros new Hn. destruct (A5 new Hn) as (C1 & C2 & C4). cbv zeta in *.
      cbn [replace_nth sok_flds map vshape repr_flds]. rewrite C2. split; [split; [exact (vok_sok _ _ V1)|exact C1]|]. split; [reflexivity|].
      split; [|exact C4].
      eapply (repr_shift t (w_mem w)); [auto|auto| |exact R1]. intros i Hi. unfold vsize in Hi. apply wr_out.
      destruct A2 as [A2|A2]; [|lia]. destruct (Hh _ _ A2) as (_ & Hx & _). lia.
  - intros f0 lf r IH (Hf & Hwr) Hdj w a vs cs pos A hs j p g Hpos Hh Hv Hp Hr Hm.
    destruct vs as [|[|xs| |] vs]; try contradiction. cbn [vok_flds repr_flds map vshape sp_tail head_fields ref_leaf_fld] in *.
    destruct (farr_place _ _ _ _ _ _ _ _ _ Hf Hwr Hp) as ((B1 & B2 & B3 & B4) & B5).
    destruct Hr as [R1 R2]. destruct Hv as (Vx & Vn & V2).
    pose proof (up_ge pos (f_align f0) (pow2_pos _ (proj1 Hf))) as Hup.
    pose proof (sp_end_ge r Hwr (map vshape vs) (up pos (f_align f0) + len xs * f_size f0)) as Hend.
    destruct j as [|j].
    + destruct p as [|i| |]; try discriminate. injection Hm as <-.
      exists (VArr xs). split; [reflexivity|]. cbn [locate_ref_fld map sp_tail vshape leaf].
      rewrite (elem_mut_ok f0 a _ xs i w _ Hf B1 B2 B3 B4 eq_refl).
      destruct (nth_error xs (N.to_nat i)) as [old|] eqn:E.
      2:{ apply nth_error_None_len in E. destruct (N.ltb_spec i (len xs)); [lia|reflexivity]. }
      pose proof (nth_error_Some_len _ _ _ E) as Hi. destruct (N.ltb_spec i (len xs)); [|lia].
      exists (up pos (f_align f0) + i * f_size f0). rewrite N.add_assoc.
      destruct (elem_place f0 _ (len xs) (w_blocks w) i Hf B2 B3 B4 Hi) as (C1 & C2 & C3).
      split; [reflexivity|]. split; [exact Hf|]. cbn [sp_end].
      split; [right; nia|]. split; [exact C2|]. split; [eapply arr_elem; eauto|].
      intros new Hn. cbv zeta. cbn [put replace_nth vok_flds map vshape vctrls repr_flds]. rewrite len_replace.
      split; [split; [now apply elems_replace|split; [rewrite len_replace; destruct Vn; lia|eapply vok_sok_flds; eauto]]|]. split; [reflexivity|]. split; [apply arr_put; auto|].
      eapply (repr_flds_ext r Hwr (w_mem w)); eauto.
      * intros o' f' Hin. apply rd_wr_out. destruct (Hh _ _ Hin) as (_ & Hx & _). unfold apart. nia.
      * intros i' Hi' _. apply wr_out. nia.
    + destruct (IH Hwr Hdj w a vs cs (up pos (f_align f0) + len xs * f_size f0) A hs j p g ltac:(lia) Hh V2 B5 R2 Hm) as (v & Ev & H).
      exists v. split; [exact Ev|]. cbn [locate_ref_fld sp_tail map vshape]. destruct (leaf v p) as [old|]; [|exact H].
      destruct H as (o & E & A1 & A2 & A3 & A4 & A5). exists o. split; [exact E|]. split; [exact A1|]. cbn [sp_end].
      split; [destruct A2 as [A2|A2]; [left; exact A2|right; lia]|]. split; [exact A3|]. split; [exact A4|].
      intros new Hn. destruct (A5 new Hn) as (C1 & C2 & C4). cbv zeta in *.
      cbn [replace_nth sok_flds map vshape repr_flds]. rewrite C2. split; [split; [exact Vx|split; [destruct Vn; lia|exact C1]]|]. split; [reflexivity|].
      split; [|exact C4]. rewrite rd_wr_out; [exact R1|]. unfold apart.
      destruct A2 as [A2|A2]; [|lia]. destruct (Hh _ _ A2) as (_ & Hx & _). lia.
Qed.


(** ** the layout of an object whose controllers were changed *)
Lemma load_ctrls_sok fs w a A n vs pos :
  wf_flds fs -> flds_place (w_blocks w) fs A a n -> hdr_in fs A n ->
  sok_flds fs vs -> repr_flds (w_mem w) fs a vs pos ->
  load_ctrls fs a w = Ok (vctrls fs vs) w.
Proof.
  intros Hwf (H0 & HA & Hm & _ & HW & Hl) Hh Hv Hr. unfold load_ctrls.
  rewrite (mapM_read _ (fun '(off, f) => rd (w_mem w) (a + off) (f_size f))).
  - f_equal. clear Hwf Hm Hh.
    revert vs pos Hv Hr. induction fs as [|off f r IH|off f r IH|t r IH|f lf r IH]; intros vs pos Hv Hr;
      cbn [sok_flds repr_flds ctrl_fields vctrls map] in *.
    + reflexivity.
    + destruct vs as [|[] vs]; try contradiction. destruct Hr as [_ Hr]. destruct Hv as [_ Hv]. eauto.
    + destruct vs as [|[] vs]; try contradiction. destruct Hr as [Hb Hr]. destruct Hv as [_ Hv].
      f_equal; eauto.
    + destruct vs as [|v vs]; try contradiction. destruct Hr as [_ Hr]. destruct Hv as [_ Hv]. eauto.
    + destruct vs as [|[] vs]; try contradiction. destruct Hr as [_ Hr]. destruct Hv as (_ & _ & Hv). eauto.
  - intros [off f] Hin. pose proof (wf_ctrl _ _ _ Hwf Hin) as Hf.
    destruct (Hh off f (ctrl_in_head _ _ _ Hin)) as (A1 & A2 & A3).
    destruct (leaf_place A n a off f (w_blocks w) Hf H0 HA Hm Hl A1 A2 A3) as (B1 & B2 & B3).
    rewrite wadd_small by lia. now apply load_ok.
Qed.
Lemma bind_inv {S A C} (m : M S A) (k : A -> M S C) s r s' : bind m k s = Ok r s' -> exists x s1, m s = Ok x s1 /\ k x s1 = Ok r s'.
Proof. unfold bind. destruct (m s) as [x s1|?|?]; try discriminate. eauto. Qed.
Lemma layout_vok_all :
  (forall t, wf_ty t -> forall w a v v' w', vok t v -> sok t v' -> vshape v' = vshape v -> place_ok (w_blocks w) t a (vsize t v) ->
     repr (w_mem w) t a v' -> calc_layout t a w = Ok (sp_lay t (vshape v)) w' -> vok t v') /\
  (forall fs, wf_flds fs -> forall w a vs vs' cs cs' pos A e w',
     vok_flds fs vs cs -> sok_flds fs vs' -> map vshape vs' = map vshape vs -> flds_place (w_blocks w) fs A a (sp_end fs (map vshape vs) pos) ->
     repr_flds (w_mem w) fs a vs' pos -> calc_tail fs cs' a pos w = Ok (sp_tail fs (map vshape vs) pos, e) w' -> vok_flds fs vs' cs').
Proof.
  apply vty_flds_ind.
  - intros f Hwf w a v v' w' Hv Hs _ _ _ _. exact Hs.
  - intros f k Hwf w a v v' w' Hv Hs _ _ _ _. exact Hs.
  - intros t IH Hwf w a v v' w' Hv Hs He Hp Hr E. destruct v, v'; try contradiction. exact (IH Hwf w a v v' w' Hv Hs He Hp Hr E).
  - intros kd hs ha fs IH Hwf w a v v' w' Hv Hs He Hp Hr E. destruct v as [| | |vs], v' as [| | |vs']; try contradiction.
    cbn [vok sok repr calc_layout vshape] in *. injection He as He.
    assert (Hge : hs <= sp_end fs (map vshape vs) hs) by (apply sp_end_ge, Hwf).
    destruct (rec_place kd hs ha fs (w_blocks w) a _ Hwf Hp Hge) as [Hfp Hh].
    assert (Hwfs : wf_flds fs) by apply Hwf.
    rewrite (bind_ok _ _ _ _ _ (load_ctrls_sok fs w a _ _ vs' hs Hwfs Hfp Hh Hs Hr)) in E.
    apply bind_inv in E. destruct E as ([r1 r2] & w1 & E1 & E2). cbn [sp_lay fst snd] in E2. injection E2 as _ E2 _. rewrite E2 in E1.
    eapply (IH Hwfs w a vs vs' _ (vctrls fs vs')); eauto. exact Hfp.
  - intros _ w a vs vs' cs cs' pos A e w' Hv Hs He Hp Hr E. destruct vs; try contradiction. destruct vs'; [exact I|discriminate].
  - intros off f r IH Hwf w a vs vs' cs cs' pos A e w' Hv Hs He Hp Hr E.
    destruct vs as [|[] vs]; try contradiction. destruct vs' as [|[] vs']; try contradiction. cbn [vok_flds sok_flds repr_flds calc_tail map vshape sp_tail sp_end wf_flds] in *. injection He as He.
    split; [tauto|]. eapply (IH (proj2 Hwf) w a vs vs' cs cs' pos A); eauto; tauto.
  - intros off f r IH Hwf w a vs vs' cs cs' pos A e w' Hv Hs He Hp Hr E.
    destruct vs as [|[] vs]; try contradiction. destruct vs' as [|[] vs']; try contradiction. cbn [vok_flds sok_flds repr_flds calc_tail map vshape sp_tail sp_end wf_flds] in *. injection He as He.
    split; [tauto|]. eapply (IH (proj2 Hwf) w a vs vs' cs cs' pos A); eauto; tauto.
  - intros t IHt r IH [Hwt Hwr] w a vs vs' cs cs' pos A e w' Hv Hs He Hp Hr E.
    destruct vs as [|v vs]; try contradiction. destruct vs' as [|v' vs']; try contradiction. cbn [map] in *. pose proof (f_equal (hd ShFix) He) as He1. pose proof (f_equal (@tl _) He) as He2. cbn [hd tl] in He1, He2.
    cbn [vok_flds sok_flds repr_flds calc_tail sp_tail] in *. destruct Hv as [V1 V2], Hs as [S1 S2], Hr as [R1 R2].
    destruct (fvar_place _ _ _ _ _ _ _ _ Hwt Hwr Hp) as (B1 & B2 & B3).
    pose proof (sp_end_ge r Hwr (map vshape vs) (up pos (sp_align t) + sp_size t (vshape v))) as Hge. destruct Hp as (_ & _ & _ & _ & HW & _). cbn [sp_end] in HW.
    assert (Eo : mask_align (wrapping_add pos (valign t - 1)) (valign t) = up pos (sp_align t)).
    { rewrite (valign_sp t Hwt). apply mask_up; [exact (sp_align_pow2 t Hwt)|lia]. }
    rewrite Eo in E. rewrite wadd_small in E by lia.
    rewrite (bind_ok _ _ _ _ _ (place_deref t w _ _ Hwt B2 (head_size_le t v Hwt V1))) in E.
    apply bind_inv in E. destruct E as (l & w1 & E1 & E2). apply bind_inv in E2. destruct E2 as ([q1 q2] & w2 & E2 & E3). cbn [fst snd] in E3. injection E3 as El Eq _ _. rewrite El in E1, E2. rewrite Eq in E2.
    assert (w1 = w) as -> by (symmetry; symmetry; eapply calc_layout_pure; eauto).
    assert (vok t v') by (eapply (IHt Hwt w _ v v'); eauto). split; [assumption|].
    rewrite lay_size_sp in E2 by auto. unfold vsize in E2. rewrite wadd_small in E2 by lia. rewrite He1 in R2.
    eapply (IH Hwr w a vs vs' cs cs' _ A); eauto.
  - intros f lf r IH (Hf & Hwr) w a vs vs' cs cs' pos A e w' Hv Hs He Hp Hr E.
    destruct vs as [|[|xs| |] vs]; try contradiction. destruct vs' as [|[|xs'| |] vs']; try contradiction. cbn [map vshape] in *. injection He as He1 He2.
    cbn [vok_flds sok_flds repr_flds calc_tail sp_tail] in *. destruct Hv as (V1 & V2 & V3), Hs as (S1 & S2 & S3), Hr as [R1 R2].
    destruct (farr_place _ _ _ _ _ _ _ _ _ Hf Hwr Hp) as (B1 & B5).
    pose proof (sp_end_ge r Hwr (map vshape vs) (up pos (f_align f) + len xs * f_size f)) as Hge. destruct Hp as (_ & _ & _ & _ & HW & _). cbn [sp_end] in HW.
    apply bind_inv in E. destruct E as (n & w1 & E1 & E2). unfold len_call in E1. destruct (N.ltb_spec (lf cs') W) as [L|L]; [|discriminate]. injection E1 as <- <-.
    assert (Ec : exists o z, cat_array_field_fast f (lf cs') pos = (o, lf cs', z)) by (unfold cat_array_field_fast; eauto). destruct Ec as (o & z & Ec). rewrite Ec in E2.
    apply bind_inv in E2. destruct E2 as ([q1 q2] & w2 & E2 & E3). cbn [fst snd] in E3. injection E3 as Eo En Eq _ _. rewrite Eq in E2.
    rewrite En in Ec. rewrite cat_fast_ok in Ec by (auto; lia). injection Ec as _ Ez. rewrite <- Ez in E2.
    split; [exact S1|]. split; [split; [lia|exact L]|]. rewrite He1 in R2. eapply (IH Hwr w a vs vs' cs cs' _ A); eauto.
Qed.

(** ** setting a leaf through a shared reference *)
Lemma cell_set_ok t w a v p f new :
  wf_ty t -> obj_at w t a v -> ref_leaf t p = Some f -> len new = f_size f ->
  match leaf v p with
  | None => cell_set t a p new w = Panic w
  | Some old => exists w' o, cell_set t a p new w = Ok tt w' /\ o + f_size f <= vsize t v /\
      w_mem w' = wr (w_mem w) (a + o) new /\ w_blocks w' = w_blocks w /\ w_alloc w' = w_alloc w /\ w_tick w' = w_tick w /\
      w_log w' = w_log w ++ drop_events f [old] /\ rd (w_mem w) (a + o) (f_size f) = old /\
      sok t (put v p new) /\ vshape (put v p new) = vshape v /\ repr (w_mem w') t a (put v p new)
  end.
Proof.
  intros Hwf Ho Hm Hn. pose proof (proj1 locate_ref_all t Hwf w a v p f Ho Hm) as H. unfold lref_ok in H.
  destruct (leaf v p) as [x|]; unfold cell_set; [|now rewrite (bind_panic _ _ _ _ H)].
  destruct H as (o & E & A1 & A2 & A3 & A4 & A5). destruct Ho as (Hv & (P0 & Pm & PW & Pl) & Hr).
  step E. cbn [fst snd]. assert (Hl : live (w_blocks w) (a + o) (f_size f)) by (eapply live_sub; eauto).
  step (load_ok w (a + o) (f_size f) (f_align f) ltac:(lia) A3 Hl). rewrite A4.
  step (store_ok w (a + o) (f_align f) new ltac:(lia) A3 ltac:(rewrite Hn; exact Hl)).
  rewrite drop_value_ok. destruct (A5 new Hn) as (B1 & B2 & B3).
  eexists _, o. cbn [add_log set_mem w_mem w_blocks w_alloc w_tick w_log]. do 8 (split; [first [reflexivity|assumption]|]). auto.
Qed.
(** The layout afterwards is the one before exactly if the value still is one of the type. *)
Lemma layout_iff t w a v w' x : wf_ty t -> obj_at w t a v -> w_blocks w' = w_blocks w -> sok t x -> vshape x = vshape v -> repr (w_mem w') t a x ->
  (calc_layout t a w' = Ok (sp_lay t (vshape v)) w' <-> vok t x) /\ (vok t x -> obj_at w' t a x).
Proof.
  intros Hwf (Hv & Hp & Hr) Hb Hs He Hx.
  assert (HO : vok t x -> obj_at w' t a x).
  { intros Hk. split; [exact Hk|]. split; [|exact Hx]. unfold vsize in *. now rewrite He, Hb. }
  split; [|exact HO]. split.
  - intros E. rewrite <- Hb in Hp. exact (proj1 layout_vok_all t Hwf w' a v x w' Hv Hs He Hp Hx E).
  - intros Hk. rewrite <- He. apply calc_layout_ok; auto.
Qed.

(** ** on leaves that muts() leads to, it is an assignment *)
Lemma ref_locate_same_all :
  (forall t a p f, mut_leaf t p = Some f -> forall w, locate_ref t a p w = locate t a p w) /\
  (forall fs a es j p f, mut_leaf_fld fs j p = Some f -> forall w, locate_ref_fld fs a es j p w = locate_fld fs a es j p w).
Proof.
  apply vty_flds_ind.
  - reflexivity.
  - reflexivity.
  - intros t IH a p f Hm w. destruct p; try discriminate. exact (IH a p f Hm w).
  - intros kd hs ha fs IH a p f Hm w. destruct p as [| | |j p]; try discriminate. cbn [locate_ref locate mut_leaf] in *.
    unfold bind. destruct (calc_layout _ a w) as [l w1|w1|u]; try reflexivity. destruct l; try reflexivity. exact (IH a _ j p f Hm w1).
  - intros a es j p f Hm. destruct j; discriminate.
  - intros off f r IH a es [|j] p g Hm w; [reflexivity|exact (IH a es j p g Hm w)].
  - intros off f r IH a es [|j] p g Hm w; [discriminate|exact (IH a es j p g Hm w)].
  - intros t IHt r IH a es [|j] p g Hm w; destruct es as [|[o l] es]; try reflexivity; cbn [locate_ref_fld locate_fld mut_leaf_fld] in *.
    + unfold bind. destruct (check_ref _ _ _ w) as [? w1|w1|u]; try reflexivity. exact (IHt _ p g Hm w1).
    + exact (IH a es j p g Hm w).
  - intros f lf r IH a es [|j] p g Hm w; destruct es as [|[o l] es]; try reflexivity.
    exact (IH a es j p g Hm w).
Qed.
Lemma mut_ref_leaf_all :
  (forall t p f, mut_leaf t p = Some f -> ref_leaf t p = Some f) /\ (forall fs j p f, mut_leaf_fld fs j p = Some f -> ref_leaf_fld fs j p = Some f).
Proof.
  apply vty_flds_ind.
  - auto.
  - auto.
  - intros t IH p f H. destruct p; try discriminate. exact (IH p f H).
  - intros kd hs ha fs IH p f H. destruct p as [| | |j p]; try discriminate. exact (IH j p f H).
  - intros [|j] p f H; discriminate.
  - intros off f r IH [|j] p g H; [exact H|exact (IH j p g H)].
  - intros off f r IH [|j] p g H; [discriminate|exact (IH j p g H)].
  - intros t IHt r IH [|j] p g H; [exact (IHt p g H)|exact (IH j p g H)].
  - intros f lf r IH [|j] p g H; [exact H|exact (IH j p g H)].
Qed.
Lemma cell_is_assign t w a v p f new : wf_ty t -> obj_at w t a v -> mut_leaf t p = Some f -> len new = f_size f ->
  cell_set t a p new w = assign t a p new w.
Proof.
  intros Hwf Ho Hm Hn. pose proof (proj1 locate_all t Hwf w a v p f Ho Hm) as H. unfold loc_ok in H.
  unfold cell_set, assign. unfold bind at 1. unfold bind at 3. rewrite (proj1 ref_locate_same_all t a p f Hm w).
  destruct (leaf v p) as [x|]; [|now rewrite H].
  destruct H as (o & E & A1 & A2 & A3 & A4 & A5). destruct Ho as (Hv & (P0 & Pm & PW & Pl) & Hr).
  rewrite E. cbn [fst snd]. assert (Hl : live (w_blocks w) (a + o) (f_size f)) by (eapply live_sub; eauto).
  step (load_ok w (a + o) (f_size f) (f_align f) ltac:(lia) A3 Hl).
  step (store_ok w (a + o) (f_align f) new ltac:(lia) A3 ltac:(rewrite Hn; exact Hl)).
  rewrite drop_value_ok. step (drop_leaf_ok f (a + o) w ltac:(lia) A3 Hl). rewrite A4.
  rewrite (store_ok (add_log w _) (a + o) (f_align f) new) by (auto; try lia; rewrite Hn; exact Hl). reflexivity.
Qed.

(** ** swapping headers *)
Lemma header_flds fs : wf_flds fs -> forall m m0 m' a b vs vs' cs cs' pos pos' A hs,
  hdr_in fs A hs -> vok_flds fs vs cs -> vok_flds fs vs' cs' -> repr_flds m fs a vs pos -> repr_flds m0 fs b vs' pos' ->
  (forall i, i < hs -> m' (a + i) = m0 (b + i)) -> (forall i, pos <= i -> i < sp_end fs (map vshape vs) pos -> m' (a + i) = m (a + i)) ->
  sok_flds fs (with_header_flds fs vs vs') /\ map vshape (with_header_flds fs vs vs') = map vshape vs /\ repr_flds m' fs a (with_header_flds fs vs vs') pos.
Proof.
  induction fs as [|off f r IH|off f r IH|t r IH|f lf r IH]; intros Hwf m m0 m' a b vs vs' cs cs' pos pos' A hs Hh Hv Hv' Hr Hr' H1 H2.
  - destruct vs; [|contradiction]. cbn. auto.
  - destruct vs as [|[bs| | |] vs], vs' as [|[bs'| | |] vs']; try contradiction. destruct Hwf as [Hf Hwr].
    cbn [vok_flds repr_flds with_header_flds sok_flds map vshape sp_end] in *. destruct Hv as [V1 V2], Hv' as [V1' V2'], Hr as [R1 R2], Hr' as [R1' R2'].
    destruct (Hh off f (or_introl eq_refl)) as (_ & Hoff & _).
    destruct (IH Hwr m m0 m' a b vs vs' cs cs' pos pos' A hs (hdr_in_cons _ _ _ _ _ (FNormal off f r) eq_refl Hh) V2 V2' R2 R2' H1 H2) as (B1 & B2 & B3).
    rewrite B2. split; [auto|]. split; [reflexivity|]. split; [|exact B3]. rewrite <- R1'.
    apply rd_eq; [apply len_rd|]. intros i Hi. rewrite nth_rd by exact Hi. rewrite <- !N.add_assoc. apply H1. lia.
  - destruct vs as [|[bs| | |] vs], vs' as [|[bs'| | |] vs']; try contradiction. destruct Hwf as [Hf Hwr].
    cbn [vok_flds repr_flds with_header_flds sok_flds map vshape sp_end] in *. destruct Hv as [V1 V2], Hv' as [V1' V2'], Hr as [R1 R2], Hr' as [R1' R2'].
    destruct (Hh off f (or_introl eq_refl)) as (_ & Hoff & _).
    destruct (IH Hwr m m0 m' a b vs vs' cs cs' pos pos' A hs (hdr_in_cons _ _ _ _ _ (FLength off f r) eq_refl Hh) V2 V2' R2 R2' H1 H2) as (B1 & B2 & B3).
    rewrite B2. split; [auto|]. split; [reflexivity|]. split; [|exact B3]. rewrite <- R1'.
    apply rd_eq; [apply len_rd|]. intros i Hi. rewrite nth_rd by exact Hi. rewrite <- !N.add_assoc. apply H1. lia.
  - destruct vs as [|v vs], vs' as [|v' vs']; try contradiction. destruct Hwf as [Hwt Hwr].
    cbn [vok_flds repr_flds with_header_flds sok_flds map sp_end] in *. destruct Hv as [V1 V2], Hv' as [V1' V2'], Hr as [R1 R2], Hr' as [R1' R2'].
    pose proof (up_ge pos (sp_align t) (pow2_pos _ (sp_align_pow2 t Hwt))) as Hup.
    pose proof (sp_end_ge r Hwr (map vshape vs) (up pos (sp_align t) + sp_size t (vshape v))) as Hge.
    destruct (IH Hwr m m0 m' a b vs vs' cs cs' _ _ A hs Hh V2 V2' R2 R2' H1 ltac:(intros; apply H2; lia)) as (B1 & B2 & B3).
    rewrite B2. split; [split; [now apply vok_sok|exact B1]|]. split; [reflexivity|]. split; [|exact B3].
    eapply (repr_shift t m); [auto|auto| |exact R1]. intros i Hi. unfold vsize in Hi. rewrite <- !N.add_assoc. apply H2; lia.
  - destruct vs as [|[|xs| |] vs], vs' as [|[|xs'| |] vs']; try contradiction. destruct Hwf as [Hf Hwr].
    cbn [vok_flds repr_flds with_header_flds sok_flds map vshape sp_end] in *. destruct Hv as (V0 & V1 & V2), Hv' as (V0' & V1' & V2'), Hr as [R1 R2], Hr' as [R1' R2'].
    pose proof (up_ge pos (f_align f) (pow2_pos _ (proj1 Hf))) as Hup.
    pose proof (sp_end_ge r Hwr (map vshape vs) (up pos (f_align f) + len xs * f_size f)) as Hge.
    destruct (IH Hwr m m0 m' a b vs vs' cs cs' _ _ A hs Hh V2 V2' R2 R2' H1 ltac:(intros; apply H2; lia)) as (B1 & B2 & B3).
    rewrite B2. split; [split; [exact V0|split; [destruct V1; lia|exact B1]]|]. split; [reflexivity|]. split; [|exact B3].
    rewrite <- R1. apply rd_ext. intros x Hx. replace x with (a + (x - a)) by lia. apply H2; lia.
Qed.
Lemma header_swap_ok t : forall w a v m0 b v' w', wf_ty t -> obj_at w t a v -> vok t v' -> repr m0 t b v' -> w_blocks w' = w_blocks w ->
  (forall i, i < head_size t -> w_mem w' (a + i) = m0 (b + i)) -> (forall i, head_size t <= i -> i < vsize t v -> w_mem w' (a + i) = w_mem w (a + i)) ->
  (calc_layout t a w' = Ok (sp_lay t (vshape v)) w' <-> header_suits t v v') /\ (header_suits t v v' -> obj_at w' t a (with_header t v v') /\ vshape (with_header t v v') = vshape v).
Proof.
  induction t as [f|f k|t IH|kd hs ha fs] using vty_ind; intros w a v m0 b v' w' Hwf Ho Hv' Hr' Hb H1 H2.
  - destruct Ho as (Hv & Hp & Hr). destruct v as [bs| | |], v' as [bs'| | |]; try contradiction. cbn [header_suits with_header calc_layout vshape sp_lay] in *.
    split; [split; [auto|reflexivity]|]. intros _. split; [|reflexivity]. split; [exact Hv'|]. split; [rewrite Hb; exact Hp|].
    cbn [repr head_size] in *. rewrite <- Hr'. apply rd_eq; [apply len_rd|]. intros i Hi. rewrite nth_rd by exact Hi. now apply H1.
  - pose proof Ho as (Hv & Hp & Hr). destruct v as [|xs| |], v' as [|xs'| |]; try contradiction. cbn [header_suits with_header vshape sp_lay head_size] in *.
    destruct Hr as [R1 R2], Hr' as [R1' R2'], Hv as [Vx Vk], Hv' as [Vx' Vk'].
    assert (Hlen : rd (w_mem w') a (len_size k) = enc_le (N.to_nat (len_size k)) (len xs')).
    { rewrite <- R1'. apply rd_eq; [apply len_rd|]. intros i Hi. rewrite nth_rd by exact Hi. now apply H1. }
    destruct Hp as (P0 & Pm & PW & Pl). unfold vsize in *. cbn [vshape sp_size sp_align] in *.
    pose proof (up_ge (len_size k) (f_align f) (pow2_pos _ (proj1 Hwf))) as Hup.
    assert (HO : len xs' = len xs -> obj_at w' (TArray f k) a (VArr xs)).
    { intros E. split; [split; auto|]. split; [rewrite Hb; repeat split; auto|]. cbn [repr]. split; [rewrite <- E; exact Hlen|].
      rewrite <- R2. apply rd_ext. intros x Hx. replace x with (a + (x - a)) by lia. apply H2; lia. }
    split; [|intros E; split; [now apply HO|reflexivity]]. split; [|intros E; exact (calc_layout_ok _ _ _ _ Hwf (HO E))].
    intros E. cbn [calc_layout] in E. apply bind_inv in E. destruct E as (n & w1 & E1 & E2).
    assert (Ec : exists o z, cat_array_field_fast f n (len_size k) = (o, n, z)) by (unfold cat_array_field_fast; eauto). destruct Ec as (o & z & Ec).
    rewrite Ec in E2. injection E2 as _ En _ _. rewrite En in E1. unfold load_len in E1. apply bind_inv in E1. destruct E1 as (bs & w2 & E1 & E3).
    unfold load in E1. apply bind_inv in E1. destruct E1 as ([] & w3 & E1 & E4). injection E4 as <- <-.
    assert (w3 = w') as -> by (unfold check_ref in E1; repeat match type of E1 with context [if ?c then _ else _] => destruct c end; try discriminate; injection E1; auto).
    rewrite Hlen, dec_enc in E3 by (rewrite len_size_nat; exact Vk'). injection E3 as E3 _. exact E3.
  - destruct v as [| |v|], v' as [| |v'|]; try contradiction; try (destruct Ho; contradiction).
    cbn [header_suits with_header vshape]. destruct (IH w a v m0 b v' w' Hwf Ho Hv' Hr' Hb H1 H2) as [A1 A2]. split; [exact A1|].
    intros Hs. destruct (A2 Hs) as [B1 B2]. split; [exact B1|]. cbn [vshape]. exact B2.
  - pose proof Ho as (Hv & Hp & Hr). destruct v as [| | |vs], v' as [| | |vs']; try contradiction. cbn [header_suits with_header].
    pose proof Hwf as ((Q1 & Q2 & Q3 & Q4 & Q5) & Q6 & Q7). cbn [head_size] in *.
    assert (Hh' : hdr_in fs (sp_align (TRec kd hs ha fs)) hs).
    { intros off g Hin. destruct (Q4 off g Hin) as (A1 & A2 & A3). repeat split; auto. cbn [sp_align]. lia. }
    destruct (header_flds fs Q6 (w_mem w) m0 (w_mem w') a b vs vs' _ _ hs hs _ hs Hh' Hv Hv' Hr Hr' H1 H2) as (B1 & B2 & B3).
    assert (Es : vshape (VRec (with_header_flds fs vs vs')) = vshape (VRec vs)) by (cbn [vshape]; now rewrite B2).
    destruct (layout_iff (TRec kd hs ha fs) w a (VRec vs) w' (VRec (with_header_flds fs vs vs')) Hwf Ho Hb B1 Es B3) as [C1 C2].
    split; [exact C1|]. intros Hs. split; [exact (C2 Hs)|exact Es].
Qed.
