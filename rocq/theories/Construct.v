(** Construct.v - the central lemma: what [initialize] does for every initializer. *)
From Coq Require Export Permutation.
From Verif Require Export Build.

(** ** sources under updates *)
Lemma isrc_boxes_all :
  (forall t i bl bl' m D n b, isrc bl bl' m D n t i -> In b (iboxes t i) -> In b bl) /\
  (forall fs is_ bl bl' m D n b, isrc_flds bl bl' m D n fs is_ -> In b (iboxes_flds fs is_) -> In b bl).
Proof.
  apply vty_flds_ind.
  - intros f i bl bl' m D n b Hs Hb. destruct i; cbn in *; try contradiction. destruct Hb as [<-|[]]. apply Hs.
  - intros f k i bl bl' m D n b Hs Hb. destruct i; cbn [isrc iboxes] in *; try contradiction. destruct Hb as [<-|[]]. apply Hs.
  - intros t IH i bl bl' m D n b Hs Hb. destruct i; cbn in *; try contradiction; [eauto|]. destruct Hb as [<-|[]]. apply Hs.
  - intros kd hs ha fs IH i bl bl' m D n b Hs Hb. destruct i; cbn in *; try contradiction; [eauto|]. destruct Hb as [<-|[]]. apply Hs.
  - intros is_ bl bl' m D n b Hs Hb. contradiction.
  - intros off f r IH is_ bl bl' m D n b Hs Hb. destruct is_; cbn in *; try contradiction. eauto.
  - intros off f r IH is_ bl bl' m D n b Hs Hb. destruct is_; cbn in *; try contradiction. eauto.
  - intros t IHt r IH is_ bl bl' m D n b Hs Hb. destruct is_ as [|i is_]; cbn in *; try contradiction.
    apply in_app_or in Hb. destruct Hs, Hb; eauto.
  - intros f lf r IH is_ bl bl' m D n b Hs Hb. destruct is_; cbn [isrc_flds iboxes_flds] in *; try contradiction. destruct Hs. eauto.
Qed.

Lemma tslice_wf f k : fty_ok f -> wf_ty (tslice f k).
Proof. intros Hf. cbn [tslice wf_ty wf_flds]. split; [|split; [split; [exact Hf|exact I]|exact I]]. split; [exists 0; split; [lia|reflexivity]|]. split; [reflexivity|]. split; [rewrite ISIZE_eq; lia|]. split; [intros ? ? []|constructor]. Qed.
Lemma tslice_vok f k vs : elems_ok f vs -> len vs = k -> k < W -> vok (tslice f k) (VRec [VArr vs]).
Proof. intros He Hk HW. cbn. repeat split; auto. Qed.
Lemma asrc_step bl' m m' D n f ai : fty_ok f -> aok f ai -> asrc bl' m D n f ai -> same_outside m m' D n -> asrc bl' m' D n f ai.
Proof.
  intros Hf Ha Hs Hm. destruct ai as [g|g|g|vs|vs|a k vs|a k vs|vs|ws fin]; cbn [asrc aok] in *; auto.
  - destruct Ha as (He & Hk & HW & _). destruct Hs as ((Hp & Hr) & Hap). split; [|exact Hap]. split; [exact Hp|].
    eapply repr_frame; eauto; [now apply tslice_wf|now apply tslice_vok].
  - destruct Ha as (He & Hk & HW). destruct Hs as ((Hp & Hr) & Hap). split; [|exact Hap]. split; [exact Hp|].
    eapply repr_frame; eauto; [now apply tslice_wf|now apply tslice_vok].
Qed.
Lemma asrc_narrow bl' m D n d k f ai : asrc bl' m D n f ai -> D <= d -> d + k <= D + n -> asrc bl' m d k f ai.
Proof.
  intros H H1 H2. destruct ai; cbn [asrc] in *; auto; destruct H as [H Ha]; (split; [exact H|]); unfold apart in *; lia.
Qed.

Lemma isrc_step_all :
  (forall t, wf_ty t -> forall i bl bl1 bl' m m' D n, iwt t i -> isrc bl bl' m D n t i ->
     same_outside m m' D n -> (forall b, In b (iboxes t i) -> In b bl1) ->
     isrc bl1 bl' m' D n t i) /\
  (forall fs, wf_flds fs -> forall is_ bl bl1 bl' m m' D n, iwt_flds fs is_ -> isrc_flds bl bl' m D n fs is_ ->
     same_outside m m' D n -> (forall b, In b (iboxes_flds fs is_) -> In b bl1) ->
     isrc_flds bl1 bl' m' D n fs is_).
Proof.
  assert (Hsrc : forall t bl m m' D n a v, wf_ty t -> vok t v -> src_ok bl m t a v -> apart a (vsize t v) D n ->
            same_outside m m' D n -> src_ok bl m' t a v).
  { intros t bl m m' D n a v Hwf Hv (Hp & Hr) Ha Hs. split; auto. eapply repr_frame; eauto. }
  assert (Hbox : forall t bl bl1 m m' D n a v, wf_ty t -> vok t v ->
     In (box_block t a v) bl /\ src_ok bl m t a v /\ apart a (vsize t v) D n ->
     same_outside m m' D n -> (forall b, In b [box_block t a v] -> In b bl1) ->
     In (box_block t a v) bl1 /\ src_ok bl1 m' t a v /\ apart a (vsize t v) D n).
  { intros t bl bl1 m m' D n a v Hwf Hv (Hb & Hs & Ha) Hm Hi.
    assert (Hin : In (box_block t a v) bl1) by (apply Hi; left; auto).
    split; [exact Hin|]. split; [|exact Ha].
    apply (Hsrc t bl m m' D n a v) in Hs; auto. destruct Hs as ((P0 & Pm & PW & Pl) & Hr).
    split; auto. repeat split; auto. right. exists (box_block t a v). split; auto. cbn. lia. }
  apply vty_flds_ind.
  - intros f Hwf i bl bl1 bl' m m' D n Hi Hs Hm Hb. destruct i; cbn [iwt isrc iboxes] in *; try contradiction; auto.
    + destruct Hs as [Hs Ha]; split; [|auto]. apply (Hsrc (TFixed f) bl' m m' D n); auto.
    + destruct Hs; split; [|auto]. destruct Hi; eauto.
    + eauto.
    + destruct Hs; split; [|auto]. destruct Hi; eauto.
  - intros f k Hwf i bl bl1 bl' m m' D n Hi Hs Hm Hb. destruct i; cbn [iwt isrc iboxes] in *; try contradiction; auto.
    + eapply asrc_step; eauto. apply Hi.
    + destruct Hs; split; [|auto]. destruct Hi; eauto.
    + eauto.
    + destruct Hs; split; [|auto]. destruct Hi; eauto.
  - intros t IH Hwf i bl bl1 bl' m m' D n Hi Hs Hm Hb. destruct i; cbn [iwt isrc iboxes] in *; try contradiction; auto.
    + eauto.
    + destruct Hs; split; [|auto]. destruct Hi; eauto.
    + eauto.
    + destruct Hs; split; [|auto]. destruct Hi; eauto.
  - intros kd hs ha fs IH Hwf i bl bl1 bl' m m' D n Hi Hs Hm Hb. destruct i; cbn [iwt isrc iboxes] in *; try contradiction; auto.
    + eapply IH; eauto. apply Hwf.
    + destruct Hs; split; [|auto]. destruct Hi; eauto.
    + eauto.
    + destruct Hs; split; [|auto]. destruct Hi; eauto.
  - intros; exact I.
  - intros off f r IH Hwf is_ bl bl1 bl' m m' D n Hi Hs Hm Hb. destruct is_ as [|[] is_]; cbn in *; try contradiction.
    eapply IH; eauto; tauto.
  - intros off f r IH Hwf is_ bl bl1 bl' m m' D n Hi Hs Hm Hb. destruct is_ as [|[] is_]; cbn in *; try contradiction.
    eapply IH; eauto; tauto.
  - intros t IHt r IH [Hwt Hwr] is_ bl bl1 bl' m m' D n Hi Hs Hm Hb. destruct is_ as [|i is_]; cbn [iwt_flds isrc_flds iboxes_flds] in *; try contradiction.
    destruct Hi, Hs. split.
    + eapply IHt; eauto. intros; apply Hb, in_or_app; auto.
    + eapply IH; eauto. intros; apply Hb, in_or_app; auto.
  - intros f lf r IH (Hf & Hwr) is_ bl bl1 bl' m m' D n Hi Hs Hm Hb. destruct is_ as [|[] is_]; cbn [iwt_flds isrc_flds iboxes_flds] in *; try contradiction.
    destruct Hi, Hs. split; [eapply asrc_step; eauto|]. eapply IH; eauto.
Qed.

Lemma isrc_flds_step fs is_ w w1 bl' a k D n b1 e :
  wf_flds fs -> iwt_flds fs is_ -> isrc_flds (w_blocks w) bl' (w_mem w) D n fs is_ ->
  upd w w1 a k b1 e -> (k = 0 \/ D <= a /\ a + k <= D + n) -> NoDup (b1 ++ ibases_flds fs is_) ->
  isrc_flds (w_blocks w1) bl' (w_mem w1) D n fs is_.
Proof.
  intros Hwf Hi Hs U Hr Hnd. eapply (proj2 isrc_step_all); eauto.
  - intros x Hx. apply (upd_mem _ _ _ _ _ _ U). lia.
  - intros b Hb. rewrite (upd_blocks _ _ _ _ _ _ U). apply in_without. split.
    + eapply (proj2 isrc_boxes_all); eauto.
    + intros Hin. assert (Hb2 : In (b_base b) (ibases_flds fs is_)) by (apply in_map; auto).
      clear -Hnd Hin Hb2. induction b1 as [|x b1 IH]; [contradiction|]. cbn in Hnd.
      inversion Hnd as [|y l Hn Hnd']; subst. destruct Hin as [->|Hin]; auto.
      apply Hn, in_or_app; auto.
Qed.

(** ** dropping unused initializers *)
Definition ready (w : world) (bl' : list block) (D n : N) (t : vty) (i : init) : Prop :=
  iwt t i /\ isrc (w_blocks w) bl' (w_mem w) D n t i /\ NoDup (ibases t i) /\
  incl bl' (without (w_blocks w) (ibases t i)).
Definition readys (w : world) (bl' : list block) (D n : N) (fs : flds) (is_ : list init) : Prop :=
  iwt_flds fs is_ /\ isrc_flds (w_blocks w) bl' (w_mem w) D n fs is_ /\ NoDup (ibases_flds fs is_) /\
  incl bl' (without (w_blocks w) (ibases_flds fs is_)).

Lemma NoDup_app_l {A} (l1 l2 : list A) : NoDup (l1 ++ l2) -> NoDup l1.
Proof. induction l1; cbn; intros H; [constructor|]. inversion H; subst. constructor; [|auto]. intros Hx. apply H2, in_or_app; auto. Qed.
Lemma NoDup_app_r {A} (l1 l2 : list A) : NoDup (l1 ++ l2) -> NoDup l2.
Proof. induction l1; cbn; intros H; [auto|]. inversion H; subst. auto. Qed.
Lemma NoDup_app_swap {A} (l1 l2 : list A) : NoDup (l1 ++ l2) -> NoDup (l2 ++ l1).
Proof. intros H. eapply Permutation_NoDup; [apply Permutation_app_comm|exact H]. Qed.

Lemma readys_var w bl' D n t r i is_ :
  readys w bl' D n (FVar t r) (i :: is_) -> ready w bl' D n t i /\ NoDup (ibases t i ++ ibases_flds r is_).
Proof.
  intros (A1 & A2 & A3 & A4). cbn in A1, A2. unfold ibases_flds in A3, A4. cbn [iboxes_flds] in A3, A4. rewrite map_app in A3, A4.
  split; [|exact A3]. repeat split; try tauto.
  - eapply NoDup_app_l; eauto.
  - eapply incl_tran; [exact A4|]. apply without_mono. apply incl_appl, incl_refl.
Qed.
Lemma readys_rest w w1 bl' D n t r i is_ a k e :
  wf_flds r -> readys w bl' D n (FVar t r) (i :: is_) -> upd w w1 a k (ibases t i) e ->
  (k = 0 \/ D <= a /\ a + k <= D + n) -> readys w1 bl' D n r is_.
Proof.
  intros Hwr (A1 & A2 & A3 & A4) U Hr. cbn in A1, A2. unfold ibases_flds in A3, A4. cbn [iboxes_flds] in A3, A4. rewrite map_app in A3, A4.
  repeat split; try tauto.
  - eapply isrc_flds_step; [exact Hwr|apply A1|apply A2|exact U|exact Hr|exact A3].
  - eapply NoDup_app_r; eauto.
  - rewrite (upd_blocks _ _ _ _ _ _ U), without_app. exact A4.
Qed.
Lemma readys_rest0 w w1 bl' D n fs r i is_ a k e :
  wf_flds r -> readys w bl' D n fs (i :: is_) -> upd w w1 a k [] e ->
  (k = 0 \/ D <= a /\ a + k <= D + n) ->
  match fs with FVar _ _ | FNil => False | FNormal _ _ r' | FLength _ _ r' | FArr _ _ r' => r' = r end ->
  readys w1 bl' D n r is_.
Proof.
  intros Hwr (A1 & A2 & A3 & A4) U Hr Hf.
  assert (B : iwt_flds r is_ /\ isrc_flds (w_blocks w) bl' (w_mem w) D n r is_ /\ ibases_flds fs (i :: is_) = ibases_flds r is_).
  { destruct fs; try contradiction; subst; cbn [iwt_flds isrc_flds] in A1, A2; destruct i; try contradiction; repeat split; tauto. }
  destruct B as (B1 & B2 & B3). rewrite B3 in *. repeat split; auto.
  - eapply isrc_flds_step; [exact Hwr|exact B1|exact B2|exact U|exact Hr|exact A3].
  - rewrite (upd_blocks _ _ _ _ _ _ U), without_nil. exact A4.
Qed.

Lemma drop_ainit_ok f ai w : drop_ainit f ai w = Ok tt (add_log w (adrop f ai)).
Proof.
  destruct ai; cbn [drop_ainit adrop]; try (unfold ret; now rewrite add_log_nil). apply drop_values_ok.
Qed.

Lemma drop_src w bl' D n t a v i :
  wf_ty t -> (i = ICopy a v \/ i = IBox a v \/ i = IOwned a v) -> ready w bl' D n t i ->
  exists w', drop_init t i w = Ok tt w' /\ upd w w' 0 0 (ibases t i) (idrop t i).
Proof.
  intros Hwf Hc (Hi & Hs & _ & Hb).
  assert (Hb' : incl bl' (w_blocks w)) by (eapply incl_tran; [exact Hb|apply without_incl]).
  destruct Hc as [-> | [-> | ->]].
  - exists w. split; [destruct t; reflexivity|]. replace (idrop t (ICopy a v)) with (@nil event) by (destruct t; reflexivity).
    replace (ibases t (ICopy a v)) with (@nil N) by (destruct t; reflexivity). apply upd_refl.
  - assert (Hv : vok t v) by (destruct t; exact Hi).
    assert (Hs' : In (box_block t a v) (w_blocks w) /\ src_ok (w_blocks w) (w_mem w) t a v) by (destruct t; cbn [isrc] in Hs; tauto).
    destruct Hs' as [Hbx Hs'].
    pose proof (src_obj _ _ w t a v Hwf Hv Hs' (incl_refl _) eq_refl) as Ho.
    eexists. split; [|].
    { transitivity (vbox_drop t a w); [destruct t; reflexivity|]. apply vbox_drop_ok; eauto. }
    replace (ibases t (IBox a v)) with [a] by (destruct t; reflexivity).
    replace (idrop t (IBox a v)) with (map EDrop (vdrops t v) ++ [EDealloc a (vsize t v) (sp_align t)]) by (destruct t; reflexivity).
    repeat split; cbn; auto.
  - assert (Hv : vok t v) by (destruct t; apply Hi).
    assert (Hs' : src_ok bl' (w_mem w) t a v) by (destruct t; cbn [isrc] in Hs; tauto).
    pose proof (src_obj _ _ w t a v Hwf Hv Hs' Hb' eq_refl) as Ho.
    eexists. split; [|].
    { transitivity (owned_drop t a w); [destruct t; reflexivity|]. apply owned_drop_ok; eauto. }
    replace (ibases t (IOwned a v)) with (@nil N) by (destruct t; reflexivity).
    replace (idrop t (IOwned a v)) with (map EDrop (vdrops t v)) by (destruct t; reflexivity).
    apply upd_log.
Qed.

Lemma drop_init_all :
  (forall t, wf_ty t -> forall w i bl' D n, ready w bl' D n t i ->
     exists w', drop_init t i w = Ok tt w' /\ upd w w' 0 0 (ibases t i) (idrop t i)) /\
  (forall fs, wf_flds fs -> forall w is_ bl' D n, readys w bl' D n fs is_ ->
     (exists w', drop_flds fs is_ w = Ok tt w' /\ upd w w' 0 0 (ibases_flds fs is_) (concat (idrops fs is_))) /\
     (exists w', drop_flds_rev fs is_ w = Ok tt w' /\ upd w w' 0 0 (ibases_flds fs is_) (concat (rev (idrops fs is_))))).
Proof.
  apply vty_flds_ind.
  - intros f Hwf w i bl' D n H. destruct i; try (eapply drop_src; eauto; fail); pose proof (proj1 H) as Hi; cbn [iwt] in Hi; try contradiction.
    + eexists. split; [apply drop_value_ok|apply upd_log].
    + exists w. split; [reflexivity|apply upd_refl].
    + exists w. split; [reflexivity|apply upd_refl].
  - intros f k Hwf w i bl' D n H. destruct i; try (eapply drop_src; eauto; fail); pose proof (proj1 H) as Hi; cbn [iwt] in Hi; try contradiction.
    eexists. split; [apply drop_ainit_ok|apply upd_log].
  - intros t IH Hwf w i bl' D n H. destruct i; try (eapply drop_src; eauto; fail); pose proof (proj1 H) as Hi; cbn [iwt] in Hi; try contradiction.
    apply (IH Hwf w i bl' D n H).
  - intros kd hs ha fs IH Hwf w i bl' D n H. destruct i; try (eapply drop_src; eauto; fail); pose proof (proj1 H) as Hi; cbn [iwt] in Hi; try contradiction.
    apply (IH (proj1 (proj2 Hwf)) w is_ bl' D n H).
  - intros _ w is_ bl' D n H. pose proof (proj1 H) as Hi. destruct is_; try contradiction.
    split; (exists w; split; [reflexivity|apply upd_refl]).
  - intros off f r IH [Hf Hwr] w is_ bl' D n H. pose proof (proj1 H) as Hi. destruct is_ as [|[] is_]; try contradiction.
    set (w1 := add_log w (drop_events f [v])).
    assert (U1 : upd w w1 0 0 [] (drop_events f [v])) by apply upd_log. split.
    + pose proof (readys_rest0 w w1 bl' D n _ r _ is_ 0 0 _ Hwr H U1 (or_introl eq_refl) eq_refl) as H1.
      destruct (proj1 (IH Hwr w1 is_ bl' D n H1)) as (w' & E & U).
      exists w'. split; [cbn [drop_flds]; step (drop_value_ok f v w); exact E|]. exact (upd_trans _ _ _ _ _ _ _ _ _ U1 U).
    + pose proof (readys_rest0 w w bl' D n _ r _ is_ 0 0 [] Hwr H (upd_refl w 0 0) (or_introl eq_refl) eq_refl) as H1.
      destruct (proj2 (IH Hwr w is_ bl' D n H1)) as (w' & E & U).
      eexists. split; [cbn [drop_flds_rev]; step E; apply drop_value_ok|].
      cbn [idrops rev]. rewrite concat_app. cbn [concat]. rewrite app_nil_r.
      replace (ibases_flds (FNormal off f r) (IFixed v :: is_)) with (ibases_flds r is_ ++ []) by apply app_nil_r.
      eapply upd_trans; [exact U|apply upd_log].
  - intros off f r IH [Hf Hwr] w is_ bl' D n H. pose proof (proj1 H) as Hi. destruct is_ as [|[] is_]; try contradiction.
    set (w1 := add_log w (drop_events f [v])).
    assert (U1 : upd w w1 0 0 [] (drop_events f [v])) by apply upd_log. split.
    + pose proof (readys_rest0 w w1 bl' D n _ r _ is_ 0 0 _ Hwr H U1 (or_introl eq_refl) eq_refl) as H1.
      destruct (proj1 (IH Hwr w1 is_ bl' D n H1)) as (w' & E & U).
      exists w'. split; [cbn [drop_flds]; step (drop_value_ok f v w); exact E|]. exact (upd_trans _ _ _ _ _ _ _ _ _ U1 U).
    + pose proof (readys_rest0 w w bl' D n _ r _ is_ 0 0 [] Hwr H (upd_refl w 0 0) (or_introl eq_refl) eq_refl) as H1.
      destruct (proj2 (IH Hwr w is_ bl' D n H1)) as (w' & E & U).
      eexists. split; [cbn [drop_flds_rev]; step E; apply drop_value_ok|].
      cbn [idrops rev]. rewrite concat_app. cbn [concat]. rewrite app_nil_r.
      replace (ibases_flds (FLength off f r) (IFixed v :: is_)) with (ibases_flds r is_ ++ []) by apply app_nil_r.
      eapply upd_trans; [exact U|apply upd_log].
  - intros t IHt r IH [Hwt Hwr] w is_ bl' D n H. pose proof (proj1 H) as Hi. destruct is_ as [|i is_]; try contradiction.
    destruct (readys_var _ _ _ _ _ _ _ _ H) as [Ht Hnd].
    assert (Eb : ibases_flds (FVar t r) (i :: is_) = ibases t i ++ ibases_flds r is_).
    { unfold ibases_flds. cbn [iboxes_flds]. apply map_app. }
    split.
    + destruct (IHt Hwt w i bl' D n Ht) as (w1 & E1 & U1).
      pose proof (readys_rest w w1 bl' D n t r i is_ 0 0 _ Hwr H U1 (or_introl eq_refl)) as H1.
      destruct (proj1 (IH Hwr w1 is_ bl' D n H1)) as (w' & E & U).
      exists w'. split; [cbn [drop_flds]; step E1; exact E|]. rewrite Eb. exact (upd_trans _ _ _ _ _ _ _ _ _ U1 U).
    + assert (H1 : readys w bl' D n r is_).
      { destruct H as (A1 & A2 & A3 & A4). rewrite Eb in A3, A4. cbn in A1, A2. repeat split; try tauto.
        - eapply NoDup_app_r; eauto.
        - eapply incl_tran; [exact A4|]. apply without_mono, incl_appr, incl_refl. }
      destruct (proj2 (IH Hwr w is_ bl' D n H1)) as (w1 & E1 & U1).
      assert (Ht1 : ready w1 bl' D n t i).
      { destruct Ht as (A1 & A2 & A3 & A4). repeat split; auto.
        - eapply (proj1 isrc_step_all); eauto.
          + intros x Hx. apply (upd_mem _ _ _ _ _ _ U1). lia.
          + intros b Hb. rewrite (upd_blocks _ _ _ _ _ _ U1). apply in_without. split.
            * eapply (proj1 isrc_boxes_all); eauto.
            * intros Hin. assert (Hb2 : In (b_base b) (ibases t i)) by (apply in_map; auto).
              clear -Hnd Hin Hb2. induction (ibases t i) as [|x l IHl]; [contradiction|]. cbn in Hnd.
              inversion Hnd as [|y l' Hn Hnd']; subst. destruct Hb2 as [->|Hb2]; auto. apply Hn, in_or_app; auto.
        - rewrite (upd_blocks _ _ _ _ _ _ U1), without_app. destruct H as (_ & _ & _ & A5). rewrite Eb in A5.
          eapply incl_tran; [exact A5|]. apply without_mono. intros x Hx. apply in_app_or in Hx. apply in_or_app. tauto. }
      destruct (IHt Hwt w1 i bl' D n Ht1) as (w' & E & U).
      exists w'. split; [cbn [drop_flds_rev]; step E1; exact E|].
      cbn [idrops rev]. rewrite concat_app. cbn [concat]. rewrite app_nil_r, Eb.
      eapply upd_bases; [|exact (upd_trans _ _ _ _ _ _ _ _ _ U1 U)]. intros x. rewrite !in_app_iff. tauto.
  - intros f lf r IH (Hf & Hwr) w is_ bl' D n H. pose proof (proj1 H) as Hi. destruct is_ as [|[] is_]; try contradiction.
    set (w1 := add_log w (adrop f ai)).
    assert (U1 : upd w w1 0 0 [] (adrop f ai)) by apply upd_log. split.
    + pose proof (readys_rest0 w w1 bl' D n _ r _ is_ 0 0 _ Hwr H U1 (or_introl eq_refl) eq_refl) as H1.
      destruct (proj1 (IH Hwr w1 is_ bl' D n H1)) as (w' & E & U).
      exists w'. split; [cbn [drop_flds]; step (drop_ainit_ok f ai w); exact E|]. exact (upd_trans _ _ _ _ _ _ _ _ _ U1 U).
    + pose proof (readys_rest0 w w bl' D n _ r _ is_ 0 0 [] Hwr H (upd_refl w 0 0) (or_introl eq_refl) eq_refl) as H1.
      destruct (proj2 (IH Hwr w is_ bl' D n H1)) as (w' & E & U).
      eexists. split; [cbn [drop_flds_rev]; step E; apply drop_ainit_ok|].
      cbn [idrops rev]. rewrite concat_app. cbn [concat]. rewrite app_nil_r.
      replace (ibases_flds (FArr f lf r) (IArrF ai :: is_)) with (ibases_flds r is_ ++ []) by apply app_nil_r.
      eapply upd_trans; [exact U|apply upd_log].
Qed.
