(** Locate.v - mutable access to one leaf. *)
From Verif Require Export BoxProofs.

Lemma len_replace {A} (l : list A) i x : len (replace_nth l i x) = len l.
Proof.
  revert i; induction l as [|y l IH]; intros [|i]; cbn [replace_nth]; auto. rewrite !len_cons. now rewrite IH.
Qed.
Lemma elems_replace f xs i x : elems_ok f xs -> len x = f_size f -> elems_ok f (replace_nth xs i x).
Proof.
  intros H Hx. revert i; induction H as [|y l Hy H IH]; intros [|i]; cbn [replace_nth]; constructor; auto. apply IH.
Qed.
Lemma nth_error_None_len {A} (l : list A) i : nth_error l (N.to_nat i) = None <-> len l <= i.
Proof. rewrite nth_error_None. unfold len. lia. Qed.
Lemma nth_error_Some_len {A} (l : list A) i x : nth_error l (N.to_nat i) = Some x -> i < len l.
Proof. intros H. assert (nth_error l (N.to_nat i) <> None) by congruence. apply nth_error_Some in H0. unfold len. lia. Qed.

(** element i of an array *)
Lemma arr_elem m p f xs i x :
  elems_ok f xs -> rd m p (len xs * f_size f) = concat xs -> nth_error xs (N.to_nat i) = Some x ->
  rd m (p + i * f_size f) (f_size f) = x.
Proof.
  intros Hx Hr Hn. pose proof (rd_chunks m p f xs Hx Hr) as E.
  pose proof (nth_error_Some_len _ _ _ Hn) as Hi.
  rewrite <- E in Hn. apply (nth_error_nth _ _ []) in Hn. rewrite <- Hn.
  now rewrite (nth_upto_map (fun i => rd m (p + i * f_size f) (f_size f))).
Qed.
Lemma arr_put m p f xs i new :
  elems_ok f xs -> rd m p (len xs * f_size f) = concat xs -> i < len xs -> len new = f_size f ->
  rd (wr m (p + i * f_size f) new) p (len xs * f_size f) = concat (replace_nth xs (N.to_nat i) new).
Proof.
  intros Hx. revert p i. induction Hx as [|x xs Hx Hxs IH]; intros p i Hr Hi Hn.
  - rewrite len_nil in Hi. lia.
  - rewrite len_cons in *. replace ((1 + len xs) * f_size f) with (f_size f + len xs * f_size f) in * by lia.
    rewrite rd_app in *. cbn [concat] in Hr. apply app_split_len in Hr; [|now rewrite len_rd].
    destruct Hr as [R1 R2]. destruct (N.eq_dec i 0) as [->|Hi0].
    + change (N.to_nat 0) with O. cbn [replace_nth concat]. replace (p + 0 * f_size f) with p by lia. f_equal.
      * rewrite <- Hn. apply rd_wr_same.
      * rewrite rd_wr_out; [exact R2|]. unfold apart. lia.
    + replace (N.to_nat i) with (S (N.to_nat (i - 1))) by lia. cbn [replace_nth concat]. f_equal.
      * rewrite rd_wr_out; [exact R1|]. unfold apart. nia.
      * replace (p + i * f_size f) with (p + f_size f + (i - 1) * f_size f) by nia. apply IH; auto. lia.
Qed.

(** frame for the fields of a record *)
Lemma repr_flds_ext fs : wf_flds fs -> forall m m' a vs cs pos,
  vok_flds fs vs cs ->
  (forall off f, In (off, f) (head_fields fs) -> rd m' (a + off) (f_size f) = rd m (a + off) (f_size f)) ->
  (forall i, pos <= i -> i < sp_end fs (map vshape vs) pos -> m' (a + i) = m (a + i)) ->
  repr_flds m fs a vs pos -> repr_flds m' fs a vs pos.
Proof.
  induction fs as [|off f r IH|off f r IH|t r IH|f lf r IH]; intros Hwf m m' a vs cs pos Hv Hh Ht Hr;
    cbn [wf_flds vok_flds repr_flds head_fields] in *.
  - exact Hr.
  - destruct vs as [|[] vs]; try contradiction. cbn [map vshape sp_end] in *. destruct Hr as [R1 R2]. split.
    + rewrite <- R1. apply Hh. left; auto.
    + apply (IH (proj2 Hwf) m m' a vs cs pos (proj2 Hv)); auto; intros; apply Hh; right; auto.
  - destruct vs as [|[] vs]; try contradiction. cbn [map vshape sp_end] in *. destruct Hr as [R1 R2]. split.
    + rewrite <- R1. apply Hh. left; auto.
    + apply (IH (proj2 Hwf) m m' a vs cs pos (proj2 Hv)); auto; intros; apply Hh; right; auto.
  - destruct vs as [|v vs]; try contradiction. cbn [map sp_end] in *. destruct Hr as [R1 R2]. destruct Hwf as [Hwt Hwr].
    pose proof (up_ge pos (sp_align t) (sp_align_pos _ Hwt)).
    pose proof (sp_end_ge r Hwr (map vshape vs) (up pos (sp_align t) + sp_size t (vshape v))). split.
    + eapply (repr_shift t m m'); [auto|tauto| |exact R1]. intros i Hi. unfold vsize in Hi.
      rewrite <- !N.add_assoc. apply Ht; lia.
    + apply (IH Hwr m m' a vs cs _ (proj2 Hv)); auto. intros i Hi Hi2. apply Ht; lia.
  - destruct vs as [|[|xs| |] vs]; try contradiction. cbn [map vshape sp_end] in *. destruct Hr as [R1 R2]. destruct Hwf as (Hf & Hwr).
    pose proof (up_ge pos (f_align f) (pow2_pos _ (proj1 Hf))).
    pose proof (sp_end_ge r Hwr (map vshape vs) (up pos (f_align f) + len xs * f_size f)). split.
    + rewrite <- R1. apply rd_shift. intros i Hi. rewrite <- !N.add_assoc. apply Ht; lia.
    + apply (IH Hwr m m' a vs cs _ (proj2 (proj2 Hv))); auto. intros i Hi Hi2. apply Ht; lia.
Qed.

(** replacing a non-controller field does not change the controllers *)
Definition loc_ok (w : world) (t : vty) (a : N) (v : vval) (p : path) (f : fty) : Prop :=
  match leaf v p with
  | None => locate t a p w = Panic w
  | Some old => exists o, locate t a p w = Ok (a + o, f) w /\ fty_ok f /\ o + f_size f <= vsize t v /\
      (a + o) mod f_align f = 0 /\ rd (w_mem w) (a + o) (f_size f) = old /\
      forall new, len new = f_size f ->
        vok t (put v p new) /\ vshape (put v p new) = vshape v /\ repr (wr (w_mem w) (a + o) new) t a (put v p new)
  end.

Definition loc_fld_ok (w : world) (fs : flds) (a : N) (vs : list vval) (cs : list (list cell)) (pos : N) (j : nat) (p : path) (f : fty) : Prop :=
  exists v, nth_error vs j = Some v /\
  match leaf v p with
  | None => locate_fld fs a (sp_tail fs (map vshape vs) pos) j p w = Panic w
  | Some old => exists o, locate_fld fs a (sp_tail fs (map vshape vs) pos) j p w = Ok (a + o, f) w /\
      fty_ok f /\ (In (o, f) (head_fields fs) \/ (pos <= o /\ o + f_size f <= sp_end fs (map vshape vs) pos)) /\
      (a + o) mod f_align f = 0 /\ rd (w_mem w) (a + o) (f_size f) = old /\
      forall new, len new = f_size f ->
        let vs' := replace_nth vs j (put v p new) in
        vok_flds fs vs' cs /\ map vshape vs' = map vshape vs /\ vctrls fs vs' = vctrls fs vs /\
        repr_flds (wr (w_mem w) (a + o) new) fs a vs' pos
  end.

Lemma elem_mut_ok f a off (xs : list (list cell)) i w m :
  fty_ok f -> a + off < W -> a + off <> 0 -> (a + off) mod f_align f = 0 -> live (w_blocks w) (a + off) (len xs * f_size f) ->
  m = len xs ->
  elem_mut f a off m i w = if i <? len xs then Ok (a + off + i * f_size f, f) w else Panic w.
Proof.
  intros Hf HW H0 Hm Hl ->. unfold elem_mut. rewrite wadd_small by auto. step (check_ref_ok w _ _ _ H0 Hm Hl).
  destruct (i <? len xs); reflexivity.
Qed.

Lemma locate_all :
  (forall t, wf_ty t -> forall w a v p f, obj_at w t a v -> mut_leaf t p = Some f -> loc_ok w t a v p f) /\
  (forall fs, wf_flds fs -> ForallOrdPairs hf_disjoint (head_fields fs) -> forall w a vs cs pos A hs j p f,
     hs <= pos -> hdr_in fs A hs ->
     vok_flds fs vs cs -> flds_place (w_blocks w) fs A a (sp_end fs (map vshape vs) pos) ->
     repr_flds (w_mem w) fs a vs pos -> mut_leaf_fld fs j p = Some f -> loc_fld_ok w fs a vs cs pos j p f).
Proof.
  apply vty_flds_ind.
  - intros f Hwf w a v p g (Hv & Hp & Hr) Hm. destruct v; try contradiction. destruct p; try discriminate.
    injection Hm as <-. cbn [vok repr] in *. destruct Hp as (P0 & Pm & PW & Pl).
    exists 0. rewrite !N.add_0_r. cbn [locate sp_align] in *. unfold vsize in *; cbn [vshape sp_size] in *.
    split; [reflexivity|]. split; [exact Hwf|]. split; [lia|]. split; [exact Pm|]. split; [exact Hr|].
    intros new Hn. cbn [put vok repr vshape]. split; [exact Hn|]. split; [reflexivity|]. rewrite <- Hn. apply rd_wr_same.
  - intros f k Hwf w a v p g Ho Hm. pose proof Ho as (Hv & Hp & Hr). destruct v as [|xs| |]; try contradiction.
    destruct p; try discriminate. injection Hm as <-. unfold loc_ok. cbn [leaf locate].
    step (calc_layout_ok (TArray f k) w a (VArr xs) Hwf Ho). cbn [vshape sp_lay repr vok] in *.
    destruct (arr_place _ _ _ _ _ Hwf Hp) as (B1 & B2 & B3 & B4). destruct Hv as [Hx Hk]. destruct Hr as [R1 R2].
    rewrite (elem_mut_ok f a _ xs i w _ Hwf B1 B2 B3 B4 eq_refl).
    destruct (nth_error xs (N.to_nat i)) as [old|] eqn:E.
    + pose proof (nth_error_Some_len _ _ _ E) as Hi. destruct (N.ltb_spec i (len xs)); [|lia].
      exists (up (len_size k) (f_align f) + i * f_size f). rewrite N.add_assoc.
      destruct (elem_place f _ (len xs) (w_blocks w) i Hwf B2 B3 B4 Hi) as (C1 & C2 & C3).
      split; [reflexivity|]. split; [exact Hwf|]. unfold vsize; cbn [vshape sp_size].
      split; [nia|]. split; [exact C2|]. split; [eapply arr_elem; eauto|].
      intros new Hn. cbn [put vok repr vshape]. rewrite len_replace. split; [split; auto; now apply elems_replace|].
      split; [reflexivity|]. split.
      * rewrite rd_wr_out; [exact R1|]. pose proof (up_ge (len_size k) (f_align f) (pow2_pos _ (proj1 Hwf))). unfold apart. lia.
      * apply arr_put; auto.
    + apply nth_error_None_len in E. destruct (N.ltb_spec i (len xs)); [lia|reflexivity].
  - intros t IH Hwf w a v p f (Hv & Hp & Hr) Hm. destruct v as [| |v|]; try contradiction. destruct p; try discriminate.
    exact (IH Hwf w a v p f (conj Hv (conj Hp Hr)) Hm).
  - intros kd hs ha fs IH Hwf w a v p f Ho Hm. pose proof Ho as (Hv & Hp & Hr). destruct v as [| | |vs]; try contradiction.
    destruct p as [| | |j p]; try discriminate. cbn [mut_leaf] in Hm.
    assert (Hge : hs <= sp_end fs (map vshape vs) hs) by (apply sp_end_ge, Hwf).
    destruct (rec_place kd hs ha fs (w_blocks w) a _ Hwf Hp Hge) as [Hfp Hh].
    destruct Hwf as ((Q1 & Q2 & Q3 & Q4 & Q5) & Q6 & Q7).
    assert (Hh' : hdr_in fs (sp_align (TRec kd hs ha fs)) hs).
    { intros off g Hin. destruct (Q4 off g Hin) as (A1 & A2 & A3). repeat split; auto. cbn [sp_align]. lia. }
    destruct (IH Q6 Q5 w a vs _ hs _ hs j p f (N.le_refl _) Hh' Hv Hfp Hr Hm) as (v & Ev & H).
    unfold loc_ok. cbn [leaf locate put]. rewrite Ev.
    step (calc_layout_ok (TRec kd hs ha fs) w a (VRec vs) (conj (conj Q1 (conj Q2 (conj Q3 (conj Q4 Q5)))) (conj Q6 Q7)) Ho).
    cbn [vshape sp_lay]. destruct (leaf v p) as [old|]; [|exact H].
    destruct H as (o & E & A1 & A2 & A3 & A4 & A5). exists o. split; [exact E|]. split; [exact A1|].
    split. { unfold vsize; cbn [vshape sp_size]. destruct A2 as [A2|A2]; [|lia]. destruct (Hh' _ _ A2) as (_ & A & _). lia. }
    split; [exact A3|]. split; [exact A4|]. intros new Hn. destruct (A5 new Hn) as (C1 & C2 & C3 & C4).
    cbn [vok vshape repr]. rewrite C3, C2. auto.
  - intros _ _ w a vs cs pos A hs j p f _ _ _ _ _ Hm. destruct j; discriminate.
  - intros off f r IH [Hf Hwr] Hdj w a vs cs pos A hs j p g Hpos Hh Hv Hp Hr Hm.
    destruct vs as [|[bs| | |] vs]; try contradiction.
    cbn [vok_flds repr_flds map vshape sp_end sp_tail locate_fld head_fields mut_leaf_fld] in *.
    inversion Hdj as [|x l Hd Hdr]; subst x l. rewrite Forall_forall in Hd.
    destruct (fhdr_place _ (FNormal off f r) off f r A a _ eq_refl Hf ltac:(cbn [sp_falign]; lia) Hp
       (hdr_in_le _ _ _ (sp_end r (map vshape vs) pos) Hh ltac:(pose proof (sp_end_ge r Hwr (map vshape vs) pos); lia))) as (B1 & B2 & B3 & B4 & B5 & B6).
    destruct (Hh off f (or_introl eq_refl)) as (_ & Hoff & _).
    destruct Hr as [R1 R2]. destruct Hv as [V1 V2]. destruct j as [|j].
    + destruct p; try discriminate. injection Hm as <-. eexists. split; [reflexivity|]. cbn [leaf].
      exists off. cbn [locate_fld]. rewrite wadd_small by auto.
      split; [reflexivity|]. split; [exact Hf|]. split; [left; left; reflexivity|]. split; [exact B3|]. split; [exact R1|].
      intros new Hn. cbv zeta. cbn [put replace_nth vok_flds map vshape vctrls repr_flds].
      split; [auto|]. split; [reflexivity|]. split; [reflexivity|]. split; [rewrite <- Hn; apply rd_wr_same|].
      eapply (repr_flds_ext r Hwr (w_mem w)); eauto.
      * intros o' f' Hin. apply rd_wr_out. specialize (Hd _ Hin). unfold hf_disjoint in Hd. cbn [fst snd] in Hd. unfold apart. lia.
      * intros i Hi _. apply wr_out. lia.
    + assert (Hh' : hdr_in r A hs) by (eapply hdr_in_cons; [|exact Hh]; reflexivity).
      destruct (IH Hwr Hdr w a vs cs pos A hs j p g Hpos Hh' V2 B5 R2 Hm) as (v & Ev & H).
      exists v. split; [exact Ev|]. cbn [locate_fld sp_tail map vshape]. destruct (leaf v p) as [old|]; [|exact H].
      destruct H as (o & E & A1 & A2 & A3 & A4 & A5). exists o. split; [exact E|]. split; [exact A1|].
      split; [destruct A2 as [A2|A2]; [left; right; exact A2|right; exact A2]|]. split; [exact A3|]. split; [exact A4|].
      intros new Hn. destruct (A5 new Hn) as (C1 & C2 & C3 & C4). cbv zeta in *.
      cbn [replace_nth vok_flds map vshape vctrls repr_flds]. rewrite C2, C3. split; [auto|]. split; [reflexivity|].
      split; [reflexivity|]. split; [|exact C4]. rewrite rd_wr_out; [exact R1|]. unfold apart.
      destruct A2 as [A2|A2]; [|lia]. specialize (Hd _ A2). unfold hf_disjoint in Hd. cbn [fst snd] in Hd. lia.
  - intros off f r IH [Hf Hwr] Hdj w a vs cs pos A hs j p g Hpos Hh Hv Hp Hr Hm.
    destruct vs as [|[bs| | |] vs]; try contradiction.
    cbn [vok_flds repr_flds map vshape sp_end sp_tail locate_fld head_fields mut_leaf_fld] in *.
    inversion Hdj as [|x l Hd Hdr]; subst x l. rewrite Forall_forall in Hd.
    destruct (fhdr_place _ (FLength off f r) off f r A a _ eq_refl Hf ltac:(cbn [sp_falign]; lia) Hp
       (hdr_in_le _ _ _ (sp_end r (map vshape vs) pos) Hh ltac:(pose proof (sp_end_ge r Hwr (map vshape vs) pos); lia))) as (B1 & B2 & B3 & B4 & B5 & B6).
    destruct (Hh off f (or_introl eq_refl)) as (_ & Hoff & _).
    destruct Hr as [R1 R2]. destruct Hv as [V1 V2]. destruct j as [|j]; [discriminate|].
    + assert (Hh' : hdr_in r A hs) by (eapply hdr_in_cons; [|exact Hh]; reflexivity).
      destruct (IH Hwr Hdr w a vs cs pos A hs j p g Hpos Hh' V2 B5 R2 Hm) as (v & Ev & H).
      exists v. split; [exact Ev|]. cbn [locate_fld sp_tail map vshape]. destruct (leaf v p) as [old|]; [|exact H].
      destruct H as (o & E & A1 & A2 & A3 & A4 & A5). exists o. split; [exact E|]. split; [exact A1|].
      split; [destruct A2 as [A2|A2]; [left; right; exact A2|right; exact A2]|]. split; [exact A3|]. split; [exact A4|].
      intros new Hn. destruct (A5 new Hn) as (C1 & C2 & C3 & C4). cbv zeta in *.
      cbn [replace_nth vok_flds map vshape vctrls repr_flds]. rewrite C2, C3. split; [auto|]. split; [reflexivity|].
      split; [reflexivity|]. split; [|exact C4]. rewrite rd_wr_out; [exact R1|]. unfold apart.
      destruct A2 as [A2|A2]; [|lia]. specialize (Hd _ A2). unfold hf_disjoint in Hd. cbn [fst snd] in Hd. lia.
  - intros t IHt r IH [Hwt Hwr] Hdj w a vs cs pos A hs j p g Hpos Hh Hv Hp Hr Hm.
    destruct vs as [|v0 vs]; try contradiction. cbn [vok_flds repr_flds map sp_tail head_fields mut_leaf_fld] in *.
    destruct (fvar_place _ _ _ _ _ _ _ _ Hwt Hwr Hp) as (B1 & B2 & B3).
    destruct Hr as [R1 R2]. destruct Hv as [V1 V2].
    pose proof (up_ge pos (sp_align t) (sp_align_pos _ Hwt)) as Hup.
    pose proof (sp_end_ge r Hwr (map vshape vs) (up pos (sp_align t) + sp_size t (vshape v0))) as Hend.
    destruct j as [|j].
    + pose proof (IHt Hwt w _ v0 p g (conj V1 (conj B2 R1)) Hm) as H. unfold loc_ok in H.
      exists v0. split; [reflexivity|]. cbn [locate_fld map sp_tail]. rewrite wadd_small by auto.
      destruct (leaf v0 p) as [old|].
      2:{ now step (place_deref t w _ _ Hwt B2 (head_size_le t v0 Hwt V1)). }
      destruct H as (o & E & A1 & A2 & A3 & A4 & A5). exists (up pos (sp_align t) + o). rewrite N.add_assoc.
      unfold vsize in A2.
      split; [step (place_deref t w _ _ Hwt B2 (head_size_le t v0 Hwt V1)); exact E|]. split; [exact A1|].
      cbn [sp_end]. split; [right; lia|]. split; [exact A3|]. split; [exact A4|].
      intros new Hn. destruct (A5 new Hn) as (C1 & C2 & C3). cbv zeta.
      cbn [replace_nth vok_flds map vctrls repr_flds]. rewrite C2. split; [auto|]. split; [reflexivity|]. split; [reflexivity|].
      split; [exact C3|]. eapply (repr_flds_ext r Hwr (w_mem w)); eauto.
      * intros o' f' Hin. apply rd_wr_out. destruct (Hh _ _ Hin) as (_ & Hx & _). unfold apart. lia.
      * intros i Hi _. apply wr_out. lia.
    + destruct (IH Hwr Hdj w a vs cs (up pos (sp_align t) + sp_size t (vshape v0)) A hs j p g ltac:(lia) Hh V2 B3 R2 Hm) as (v & Ev & H).
      exists v. split; [exact Ev|]. cbn [locate_fld sp_tail map vshape]. destruct (leaf v p) as [old|]; [|exact H].
      destruct H as (o & E & A1 & A2 & A3 & A4 & A5). exists o. split; [exact E|]. split; [exact A1|]. cbn [sp_end].
      split; [destruct A2 as [A2|A2]; [left; exact A2|right; lia]|]. split; [exact A3|]. split; [exact A4|].
      intros new Hn. destruct (A5 new Hn) as (C1 & C2 & C3 & C4). cbv zeta in *.
      cbn [replace_nth vok_flds map vshape vctrls repr_flds]. rewrite C2, C3. split; [auto|]. split; [reflexivity|].
      split; [reflexivity|]. split; [|exact C4].
      eapply (repr_shift t (w_mem w)); [auto|auto| |exact R1]. intros i Hi. unfold vsize in Hi. apply wr_out.
      destruct A2 as [A2|A2]; [|lia]. destruct (Hh _ _ A2) as (_ & Hx & _). lia.
  - intros f0 lf r IH (Hf & Hwr) Hdj w a vs cs pos A hs j p g Hpos Hh Hv Hp Hr Hm.
    destruct vs as [|[|xs| |] vs]; try contradiction. cbn [vok_flds repr_flds map vshape sp_tail head_fields mut_leaf_fld] in *.
    destruct (farr_place _ _ _ _ _ _ _ _ _ Hf Hwr Hp) as ((B1 & B2 & B3 & B4) & B5).
    destruct Hr as [R1 R2]. destruct Hv as (Vx & Vn & V2).
    pose proof (up_ge pos (f_align f0) (pow2_pos _ (proj1 Hf))) as Hup.
    pose proof (sp_end_ge r Hwr (map vshape vs) (up pos (f_align f0) + len xs * f_size f0)) as Hend.
    destruct j as [|j].
    + destruct p as [|i| |]; try discriminate. injection Hm as <-.
      exists (VArr xs). split; [reflexivity|]. cbn [locate_fld map sp_tail vshape leaf].
      rewrite (elem_mut_ok f0 a _ xs i w _ Hf B1 B2 B3 B4 eq_refl).
      destruct (nth_error xs (N.to_nat i)) as [old|] eqn:E.
      2:{ apply nth_error_None_len in E. destruct (N.ltb_spec i (len xs)); [lia|reflexivity]. }
      pose proof (nth_error_Some_len _ _ _ E) as Hi. destruct (N.ltb_spec i (len xs)); [|lia].
      exists (up pos (f_align f0) + i * f_size f0). rewrite N.add_assoc.
      destruct (elem_place f0 _ (len xs) (w_blocks w) i Hf B2 B3 B4 Hi) as (C1 & C2 & C3).
      split; [reflexivity|]. split; [exact Hf|]. cbn [sp_end].
      split; [right; nia|]. split; [exact C2|]. split; [eapply arr_elem; eauto|].
      intros new Hn. cbv zeta. cbn [put replace_nth vok_flds map vshape vctrls repr_flds]. rewrite len_replace.
      split; [split; [now apply elems_replace|auto]|]. split; [reflexivity|]. split; [reflexivity|]. split; [apply arr_put; auto|].
      eapply (repr_flds_ext r Hwr (w_mem w)); eauto.
      * intros o' f' Hin. apply rd_wr_out. destruct (Hh _ _ Hin) as (_ & Hx & _). unfold apart. nia.
      * intros i' Hi' _. apply wr_out. nia.
    + destruct (IH Hwr Hdj w a vs cs (up pos (f_align f0) + len xs * f_size f0) A hs j p g ltac:(lia) Hh V2 B5 R2 Hm) as (v & Ev & H).
      exists v. split; [exact Ev|]. cbn [locate_fld sp_tail map vshape]. destruct (leaf v p) as [old|]; [|exact H].
      destruct H as (o & E & A1 & A2 & A3 & A4 & A5). exists o. split; [exact E|]. split; [exact A1|]. cbn [sp_end].
      split; [destruct A2 as [A2|A2]; [left; exact A2|right; lia]|]. split; [exact A3|]. split; [exact A4|].
      intros new Hn. destruct (A5 new Hn) as (C1 & C2 & C3 & C4). cbv zeta in *.
      cbn [replace_nth vok_flds map vshape vctrls repr_flds]. rewrite C2, C3. split; [auto|]. split; [reflexivity|].
      split; [reflexivity|]. split; [|exact C4]. rewrite rd_wr_out; [exact R1|]. unfold apart.
      destruct A2 as [A2|A2]; [|lia]. destruct (Hh _ _ A2) as (_ & Hx & _). lia.
Qed.

(** Assigning a leaf. *)
Lemma assign_ok t w a v p f new :
  wf_ty t -> obj_at w t a v -> mut_leaf t p = Some f -> len new = f_size f ->
  match leaf v p with
  | None => assign t a p new w = Panic w
  | Some old => exists w' o, assign t a p new w = Ok tt w' /\ o + f_size f <= vsize t v /\
      upd w w' (a + o) (f_size f) [] (drop_events f [old]) /\ rd (w_mem w') (a + o) (f_size f) = new /\
      obj_at w' t a (put v p new) /\ vshape (put v p new) = vshape v
  end.
Proof.
  intros Hwf Ho Hm Hn. pose proof (proj1 locate_all t Hwf w a v p f Ho Hm) as H. unfold loc_ok in H.
  destruct (leaf v p) as [old|]; unfold assign; [|now rewrite (bind_panic _ _ _ _ H)].
  destruct H as (o & E & A1 & A2 & A3 & A4 & A5). destruct Ho as (Hv & (P0 & Pm & PW & Pl) & Hr).
  step E. cbn [fst snd]. assert (Hl : live (w_blocks w) (a + o) (f_size f)) by (eapply live_sub; eauto).
  step (drop_leaf_ok f (a + o) w ltac:(lia) A3 Hl). rewrite A4.
  set (w1 := add_log w (drop_events f [old])).
  rewrite (store_ok w1 (a + o) (f_align f) new) by (auto; try lia; rewrite Hn; exact Hl).
  eexists _, o. split; [reflexivity|]. split; [exact A2|].
  destruct (A5 new Hn) as (B1 & B2 & B3). split; [|split; [|split; [|exact B2]]].
  - change (@nil N) with (@nil N ++ []). replace (drop_events f [old]) with (drop_events f [old] ++ []) by apply app_nil_r.
    eapply upd_trans; [apply upd_log|]. rewrite <- Hn. apply upd_store.
  - cbn. rewrite <- Hn. apply rd_wr_same.
  - split; [exact B1|]. unfold vsize. rewrite B2. split; [repeat split; auto|exact B3].
Qed.

(** ** leaves of the updated value *)
Lemma nth_error_replace_eq {A} (l : list A) i x y : nth_error l i = Some y -> nth_error (replace_nth l i x) i = Some x.
Proof. revert i; induction l as [|z l IH]; intros [|i]; cbn; try discriminate; auto. Qed.
Lemma nth_error_replace_ne {A} (l : list A) i j x : i <> j -> nth_error (replace_nth l i x) j = nth_error l j.
Proof. revert i j; induction l as [|z l IH]; intros [|i] [|j] H; cbn; auto; try congruence. Qed.
Lemma leaf_put_eq p : forall v new old, leaf v p = Some old -> leaf (put v p new) p = Some new.
Proof.
  induction p as [|i|p IH|j p IH]; intros v new old H; destruct v; try discriminate; cbn [leaf put] in *.
  - reflexivity.
  - eapply nth_error_replace_eq; eauto.
  - eapply IH; eauto.
  - destruct (nth_error vs j) as [v|] eqn:E; [|discriminate]. cbn [leaf]. erewrite nth_error_replace_eq by eauto. eapply IH; eauto.
Qed.
Lemma leaf_put_ne p : forall q v new, p <> q -> leaf (put v p new) q = leaf v q.
Proof.
  induction p as [|i|p IH|j p IH]; intros q v new H; destruct v; cbn [put]; try reflexivity; destruct q; cbn [leaf]; try reflexivity; try congruence.
  - apply nth_error_replace_ne. intros E. apply H. f_equal. lia.
  - apply IH. congruence.
  - destruct (nth_error vs j) as [v|] eqn:E; reflexivity.
  - destruct (nth_error vs j) as [v|] eqn:E; reflexivity.
  - destruct (nth_error vs j) as [v|] eqn:E; reflexivity.
  - destruct (nth_error vs j) as [v|] eqn:E; [|reflexivity]. cbn [leaf].
    destruct (Nat.eq_dec j j0) as [<-|Hj].
    + erewrite nth_error_replace_eq by eauto. rewrite E. apply IH. congruence.
    + now rewrite nth_error_replace_ne by auto.
Qed.
