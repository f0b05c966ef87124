(** InitLayout.v - calculate_layout_cautious computes exactly the specified layout, and reports
    overflow exactly when the object does not fit the address space. *)
From Verif Require Export View.

Lemma ictrls_eq fs is_ : init_ctrls fs is_ = ictrls fs is_.
Proof. revert is_; induction fs; destruct is_ as [|i is_]; cbn; try reflexivity; auto. Qed.

Lemma cautious_ok f n pos :
  fty_ok f ->
  cat_array_field_cautious f n pos =
    if up pos (f_align f) + n * f_size f <? W
    then Some (up pos (f_align f), n, up pos (f_align f) + n * f_size f) else None.
Proof.
  intros Hf. unfold cat_array_field_cautious.
  destruct (checked_add_up pos (f_align f) (proj1 Hf)) as [(y & -> & -> & Hu)|[-> Hu]].
  - unfold checked_mul, checked_add. replace (f_size f * n) with (n * f_size f) by lia.
    destruct (N.ltb_spec (n * f_size f) W), (N.ltb_spec (up pos (f_align f) + n * f_size f) W); auto; lia.
  - destruct (N.ltb_spec (up pos (f_align f) + n * f_size f) W); auto; lia.
Qed.

Lemma src_obj bl bl' w t a v :
  wf_ty t -> vok t v -> src_ok bl' (w_mem w) t a v -> incl bl' bl -> bl = w_blocks w ->
  obj_at w t a v.
Proof.
  intros Hwf Hv ((P0 & Pm & PW & Pl) & Hr) Hi ->. split; [exact Hv|]. split; [|exact Hr].
  repeat split; auto. eapply live_incl; eauto.
Qed.

Lemma lay_size_ishape t i : iwt t i -> lay_size (sp_lay t (ishape t i)) = isize t i.
Proof.
  revert i.
  unfold isize. induction t as [f|f k|t IH|kd hs ha fs]; intros i Hi.
          - reflexivity.
          - destruct i; cbn [iwt] in Hi; try contradiction; cbn [ishape]; try reflexivity;
              destruct ghost; cbn in Hi; try tauto; reflexivity.
          - destruct i; cbn [iwt] in Hi; try contradiction; cbn [ishape].
            + apply (IH i Hi).
            + apply (lay_size_sp (TNew t) ghost (proj1 Hi)).
            + apply (lay_size_sp (TNew t) ghost Hi).
            + apply (lay_size_sp (TNew t) ghost (proj1 Hi)).
          - destruct i; cbn [iwt] in Hi; try contradiction; cbn [ishape]; try reflexivity;
              destruct ghost; cbn in Hi; try tauto; reflexivity.
Qed.

Lemma init_layout_ok_all :
  (forall t, wf_ty t -> forall w i bl' dst n, iwt t i ->
     isrc (w_blocks w) bl' (w_mem w) dst n t i -> incl bl' (w_blocks w) -> ilens t i = true ->
     init_layout t i w = Ok (if isize t i <? W then Some (sp_lay t (ishape t i)) else None) w) /\
  (forall fs, wf_flds fs -> forall w is_ cs pos bl' dst n, iwt_flds fs is_ ->
     isrc_flds (w_blocks w) bl' (w_mem w) dst n fs is_ -> incl bl' (w_blocks w) -> pos < W -> ilens_flds fs is_ cs = true ->
     init_tail fs is_ cs pos w =
       Ok (if sp_end fs (ishapes fs is_ cs) pos <? W
           then Some (sp_tail fs (ishapes fs is_ cs) pos, sp_end fs (ishapes fs is_ cs) pos) else None) w).
Proof.
  assert (Hobj : forall t i w bl' a v,
     wf_ty t -> vok t v -> src_ok bl' (w_mem w) t a v -> incl bl' (w_blocks w) ->
     (i = ICopy a v \/ i = IBox a v \/ i = IOwned a v) ->
     init_layout t i w = Ok (if isize t i <? W then Some (sp_lay t (ishape t i)) else None) w).
  { intros t i w bl' a v Hwf Hv Hs Hi Hc.
    pose proof (src_obj _ _ w t a v Hwf Hv Hs Hi eq_refl) as Ho.
    assert (E : init_layout t i w = (l <- calc_layout t a ;; ret (Some l)) w /\ ishape t i = vshape v).
    { destruct Hc as [-> | [-> | ->]]; destruct t; split; reflexivity. }
    destruct E as [-> E]. unfold isize. rewrite E. step (calc_layout_ok t w a v Hwf Ho).
    destruct Ho as (_ & (_ & _ & HW & _) & _). unfold vsize in HW.
    destruct (N.ltb_spec (sp_size t (vshape v)) W); [reflexivity|lia]. }
  apply vty_flds_ind.
  - intros f Hwf w i bl' dst n Hi Hs Hb Hz. destruct i; cbn [iwt isrc] in *; try contradiction.
    + cbn. unfold isize; cbn. destruct Hwf as (_ & _ & H & _). rewrite ISIZE_eq in H.
      destruct (N.ltb_spec (f_size f) W); [reflexivity|rewrite W_eq in *; lia].
    + cbn. unfold isize; cbn. destruct Hwf as (_ & _ & H & _). rewrite ISIZE_eq in H.
      destruct (N.ltb_spec (f_size f) W); [reflexivity|rewrite W_eq in *; lia].
    + cbn. unfold isize; cbn. destruct Hwf as (_ & _ & H & _). rewrite ISIZE_eq in H.
      destruct (N.ltb_spec (f_size f) W); [reflexivity|rewrite W_eq in *; lia].
    + eapply Hobj; [exact Hwf|apply Hi|apply Hs|exact Hb|auto].
    + eapply Hobj; [exact Hwf|exact Hi|apply Hs|apply incl_refl|auto].
    + eapply Hobj; [exact Hwf|apply Hi|apply Hs|exact Hb|auto].
  - intros f k Hwf w i bl' dst n Hi Hs Hb Hz. destruct i; cbn [iwt isrc] in *; try contradiction.
    + cbn [init_layout]. rewrite cautious_ok by auto. unfold isize; cbn [ishape sp_size sp_lay].
      destruct (up (len_size k) (f_align f) + n0 * f_size f <? W); reflexivity.
    + eapply Hobj; [exact Hwf|apply Hi|apply Hs|exact Hb|auto].
    + eapply Hobj; [exact Hwf|exact Hi|apply Hs|apply incl_refl|auto].
    + eapply Hobj; [exact Hwf|apply Hi|apply Hs|exact Hb|auto].
  - intros t IH Hwf w i bl' dst n Hi Hs Hb Hz. destruct i; cbn [iwt isrc] in *; try contradiction.
    + cbn [init_layout]. cbn [ilens] in Hz. rewrite (IH Hwf w i bl' dst n Hi Hs Hb Hz). reflexivity.
    + eapply Hobj; [exact Hwf|apply Hi|apply Hs|exact Hb|auto].
    + eapply Hobj; [exact Hwf|exact Hi|apply Hs|apply incl_refl|auto].
    + eapply Hobj; [exact Hwf|apply Hi|apply Hs|exact Hb|auto].
  - intros kd hs ha fs IH Hwf w i bl' dst n Hi Hs Hb Hz. destruct i; cbn [iwt isrc] in *; try contradiction.
    + cbn [init_layout]. destruct Hwf as ((_ & _ & Hhs & _) & Hwfs & _).
      rewrite ictrls_eq. cbn [ilens] in Hz.
      rewrite (bind_ok _ _ w _ w (IH Hwfs w is_ _ hs bl' dst n Hi Hs Hb ltac:(rewrite ISIZE_eq in Hhs; rewrite W_eq; lia) Hz)). unfold isize; cbn [ishape sp_size sp_lay].
      destruct (sp_end fs (ishapes fs is_ (ictrls fs is_)) hs <? W); reflexivity.
    + eapply Hobj; [exact Hwf|apply Hi|apply Hs|exact Hb|auto].
    + eapply Hobj; [exact Hwf|exact Hi|apply Hs|apply incl_refl|auto].
    + eapply Hobj; [exact Hwf|apply Hi|apply Hs|exact Hb|auto].
  - intros _ w is_ cs pos bl' dst n Hi Hs Hb Hp Hz. destruct is_; try contradiction. cbn.
    destruct (N.ltb_spec pos W); [reflexivity|lia].
  - intros off f r IH Hwf w is_ cs pos bl' dst n Hi Hs Hb Hp Hz.
    destruct is_ as [|[] is_]; try contradiction. cbn [iwt_flds isrc_flds init_tail ishapes sp_end sp_tail ilens_flds] in *.
    apply (IH (proj2 Hwf) w is_ cs pos bl' dst n); auto. apply Hi.
  - intros off f r IH Hwf w is_ cs pos bl' dst n Hi Hs Hb Hp Hz.
    destruct is_ as [|[] is_]; try contradiction. cbn [iwt_flds isrc_flds init_tail ishapes sp_end sp_tail ilens_flds] in *.
    apply (IH (proj2 Hwf) w is_ cs pos bl' dst n); auto. apply Hi.
  - intros t IHt r IH [Hwt Hwr] w is_ cs pos bl' dst n Hi Hs Hb Hp Hz.
    destruct is_ as [|i is_]; try contradiction. cbn [iwt_flds isrc_flds init_tail ishapes sp_end sp_tail ilens_flds] in *.
    destruct Hi as [Hi1 Hi2]. destruct Hs as [Hs1 Hs2]. apply andb_prop in Hz. destruct Hz as [Hz1 Hz2].
    set (ss := ishapes r is_ cs). set (s := ishape t i).
    pose proof (sp_end_ge r Hwr ss (up pos (sp_align t) + sp_size t s)) as Hge.
    rewrite (valign_sp t Hwt).
    destruct (checked_add_up pos (sp_align t) (sp_align_pow2 t Hwt)) as [(y & -> & Em & Hu)|[-> Hu]].
    + cbv zeta. rewrite Em. step (IHt Hwt w i bl' dst n Hi1 Hs1 Hb Hz1). unfold isize. fold s.
      destruct (N.ltb_spec (sp_size t s) W) as [H1|H1].
      * assert (El : lay_size (sp_lay t s) = sp_size t s).
        { exact (lay_size_ishape t i Hi1). }
        rewrite El. unfold checked_add.
        destruct (N.ltb_spec (up pos (sp_align t) + sp_size t s) W) as [H2|H2].
        -- rewrite (bind_ok _ _ w _ w (IH Hwr w is_ cs _ bl' dst n Hi2 Hs2 Hb H2 Hz2)). fold ss.
           destruct (sp_end r ss (up pos (sp_align t) + sp_size t s) <? W); reflexivity.
        -- destruct (N.ltb_spec (sp_end r ss (up pos (sp_align t) + sp_size t s)) W); [lia|reflexivity].
      * destruct (N.ltb_spec (sp_end r ss (up pos (sp_align t) + sp_size t s)) W); [lia|reflexivity].
    + destruct (N.ltb_spec (sp_end r ss (up pos (sp_align t) + sp_size t s)) W); [lia|reflexivity].
  - intros f lf r IH (Hf & Hwr) w is_ cs pos bl' dst n Hi Hs Hb Hp Hz.
    destruct is_ as [|[] is_]; try contradiction. cbn [iwt_flds isrc_flds init_tail ishapes sp_end sp_tail ilens_flds] in *.
    destruct Hi as [Hi1 Hi2]. destruct Hs as [_ Hs]. set (ss := ishapes r is_ cs). apply andb_prop in Hz. destruct Hz as [Hz1 Hz2]. apply N.ltb_lt in Hz1.
    pose proof (sp_end_ge r Hwr ss (up pos (f_align f) + lf cs * f_size f)) as Hge. step (len_call_ok (lf cs) w Hz1).
    rewrite cautious_ok by auto.
    destruct (N.ltb_spec (up pos (f_align f) + lf cs * f_size f) W) as [H2|H2].
    + rewrite (bind_ok _ _ w _ w (IH Hwr w is_ cs _ bl' dst n Hi2 Hs Hb H2 Hz2)). fold ss.
      destruct (sp_end r ss (up pos (f_align f) + lf cs * f_size f) <? W); reflexivity.
    + destruct (N.ltb_spec (sp_end r ss (up pos (f_align f) + lf cs * f_size f)) W); [lia|reflexivity].
Qed.

(** A length expression that panics: the layout computation stops there, or before because of an
    overflow. *)
Lemma init_layout_bad_all :
  (forall t, wf_ty t -> forall w i bl' dst n, iwt t i ->
     isrc (w_blocks w) bl' (w_mem w) dst n t i -> incl bl' (w_blocks w) -> ilens t i = false ->
     init_layout t i w = Ok None w \/ init_layout t i w = Panic w) /\
  (forall fs, wf_flds fs -> forall w is_ cs pos bl' dst n, iwt_flds fs is_ ->
     isrc_flds (w_blocks w) bl' (w_mem w) dst n fs is_ -> incl bl' (w_blocks w) -> pos < W -> ilens_flds fs is_ cs = false ->
     init_tail fs is_ cs pos w = Ok None w \/ init_tail fs is_ cs pos w = Panic w).
Proof.
  apply vty_flds_ind.
  - intros f Hwf w i bl' dst n Hi Hs Hb Hz. destruct i; discriminate.
  - intros f k Hwf w i bl' dst n Hi Hs Hb Hz. destruct i; discriminate.
  - intros t IH Hwf w i bl' dst n Hi Hs Hb Hz. destruct i; try discriminate. cbn [iwt isrc ilens init_layout] in *. eapply IH; eauto.
  - intros kd hs ha fs IH Hwf w i bl' dst n Hi Hs Hb Hz. destruct i; try discriminate. cbn [iwt isrc ilens init_layout] in *.
    destruct Hwf as ((_ & _ & Hhs & _) & Hwfs & _). rewrite ictrls_eq.
    destruct (IH Hwfs w is_ (ictrls fs is_) hs bl' dst n Hi Hs Hb ltac:(rewrite ISIZE_eq in Hhs; rewrite W_eq; lia) Hz) as [E|E];
      unfold bind; rewrite E; auto.
  - intros _ w is_ cs pos bl' dst n Hi Hs Hb Hp Hz. destruct is_; discriminate.
  - intros off f r IH Hwf w is_ cs pos bl' dst n Hi Hs Hb Hp Hz. destruct is_ as [|[] is_]; try contradiction.
    cbn [iwt_flds isrc_flds init_tail ilens_flds] in *. eapply IH; eauto; [apply Hwf|apply Hi].
  - intros off f r IH Hwf w is_ cs pos bl' dst n Hi Hs Hb Hp Hz. destruct is_ as [|[] is_]; try contradiction.
    cbn [iwt_flds isrc_flds init_tail ilens_flds] in *. eapply IH; eauto; [apply Hwf|apply Hi].
  - intros t IHt r IH [Hwt Hwr] w is_ cs pos bl' dst n Hi Hs Hb Hp Hz.
    destruct is_ as [|i is_]; try contradiction. cbn [iwt_flds isrc_flds init_tail ilens_flds] in *.
    destruct Hi as [Hi1 Hi2]. destruct Hs as [Hs1 Hs2].
    destruct (checked_add pos (valign t - 1)) as [x|]; [|auto]. cbv zeta.
    destruct (ilens t i) eqn:Ei; cbn [andb] in Hz.
    + step (proj1 init_layout_ok_all t Hwt w i bl' dst n Hi1 Hs1 Hb Ei). destruct (isize t i <? W); [|auto].
      unfold checked_add. match goal with |- context [?e <? W] => destruct (N.ltb_spec e W) as [H2|H2] end; [|auto].
      destruct (IH Hwr w is_ cs _ bl' dst n Hi2 Hs2 Hb H2 Hz) as [E|E]; unfold bind; rewrite E; auto.
    + destruct (IHt Hwt w i bl' dst n Hi1 Hs1 Hb Ei) as [E|E]; unfold bind; rewrite E; auto.
  - intros f lf r IH (Hf & Hwr) w is_ cs pos bl' dst n Hi Hs Hb Hp Hz.
    destruct is_ as [|[] is_]; try contradiction. cbn [iwt_flds isrc_flds init_tail ilens_flds] in *. destruct Hi as [Hi1 Hi2]. destruct Hs as [_ Hs].
    destruct (N.ltb_spec (lf cs) W) as [H1|H1]; cbn [andb] in Hz.
    + step (len_call_ok (lf cs) w H1). rewrite cautious_ok by auto.
      match goal with |- context [?e <? W] => destruct (N.ltb_spec e W) as [H2|H2] end; [|auto].
      destruct (IH Hwr w is_ cs _ bl' dst n Hi2 Hs Hb H2 Hz) as [E|E]; unfold bind; rewrite E; auto.
    + right. unfold bind. now rewrite (len_call_panic (lf cs) w H1).
Qed.

Lemma init_layout_ok t w i dst n :
  wf_ty t -> init_ready w t i dst n -> ilens t i = true ->
  init_layout t i w = Ok (if isize t i <? W then Some (sp_lay t (ishape t i)) else None) w.
Proof.
  intros Hwf (Hi & _ & Hs) Hz. eapply init_layout_ok_all; eauto. apply without_incl.
Qed.
Lemma init_layout_bad t w i dst n :
  wf_ty t -> init_ready w t i dst n -> ilens t i = false ->
  init_layout t i w = Ok None w \/ init_layout t i w = Panic w.
Proof.
  intros Hwf (Hi & _ & Hs) Hz. eapply init_layout_bad_all; eauto. apply without_incl.
Qed.
(** A layout is only computed when no length expression panics. *)
Lemma init_layout_lens t w i dst n l w' : wf_ty t -> init_ready w t i dst n -> init_layout t i w = Ok (Some l) w' -> ilens t i = true.
Proof.
  intros Hwf Hr E. destruct (ilens t i) eqn:Ei; [reflexivity|]. destruct (init_layout_bad t w i dst n Hwf Hr Ei) as [X|X]; rewrite X in E; discriminate.
Qed.
