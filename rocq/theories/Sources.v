(** Sources.v - the objects an initializer refers to, as a list. *)
From Verif Require Export Setters.

Definition asrcs (f : fty) (ai : ainit) : list (vty * N * vval * bool) :=
  match ai with
  | ACopyAt a k vs | ACloneAt a k vs => [(tslice f k, a, VRec [VArr vs], false)]
  | _ => []
  end.
Fixpoint srcs (t : vty) (i : init) : list (vty * N * vval * bool) :=
  match i with
  | IBox a v => [(t, a, v, true)]
  | ICopy a v | IOwned a v => [(t, a, v, false)]
  | _ =>
      match t, i with
      | TFixed f, IFixedCloneAt a v => [(TFixed f, a, VFix v, false)]
      | TArray f _, ISized _ ai => asrcs f ai
      | TNew t, INew i => srcs t i
      | TRec _ _ _ fs, IRec is_ => srcs_flds fs is_
      | _, _ => []
      end
  end
with srcs_flds (fs : flds) (is_ : list init) : list (vty * N * vval * bool) :=
  match fs, is_ with
  | FNormal _ _ r, _ :: is' | FLength _ _ r, _ :: is' => srcs_flds r is'
  | FArr f _ r, i :: is' => match i with IArrF ai => asrcs f ai | _ => [] end ++ srcs_flds r is'
  | FVar t r, i :: is' => srcs t i ++ srcs_flds r is'
  | _, _ => []
  end.
Definition src_cond (bl bl' : list block) (m : N -> cell) (D n : N) (s : vty * N * vval * bool) : Prop :=
  let '(t, a, v, b) := s in
  if b then In (box_block t a v) bl /\ src_ok bl m t a v /\ apart a (vsize t v) D n
  else src_ok bl' m t a v /\ apart a (vsize t v) D n.

Lemma isrc_srcs :
  (forall t i bl bl' m D n, isrc bl bl' m D n t i <-> Forall (src_cond bl bl' m D n) (srcs t i)) /\
  (forall fs is_ bl bl' m D n, isrc_flds bl bl' m D n fs is_ <-> Forall (src_cond bl bl' m D n) (srcs_flds fs is_)).
Proof.
  assert (H1 : forall P (x : vty * N * vval * bool), Forall P [x] <-> P x).
  { intros P x. split; [intros H; now inversion H|repeat constructor; auto]. }
  assert (H0 : forall P : vty * N * vval * bool -> Prop, Forall P [] <-> True) by (intros P; split; auto).
  assert (HA : forall bl bl' m D n f ai, asrc bl' m D n f ai <-> Forall (src_cond bl bl' m D n) (asrcs f ai)).
  { intros bl bl' m D n f ai. destruct ai; cbn [asrc asrcs]; rewrite ?H0, ?H1; reflexivity. }
  apply vty_flds_ind.
  - intros f i bl bl' m D n. destruct i; cbn [isrc srcs]; rewrite ?H0, ?H1; reflexivity.
  - intros f k i bl bl' m D n. destruct i; cbn [isrc srcs]; rewrite ?H0, ?H1; try reflexivity. apply HA.
  - intros t IH i bl bl' m D n. destruct i; cbn [isrc srcs]; rewrite ?H0, ?H1; try reflexivity. apply IH.
  - intros kd hs ha fs IH i bl bl' m D n. destruct i; cbn [isrc srcs]; rewrite ?H0, ?H1; try reflexivity. apply IH.
  - intros is_ bl bl' m D n. cbn [isrc_flds srcs_flds]. destruct is_; rewrite H0; tauto.
  - intros off f r IH is_ bl bl' m D n. destruct is_; cbn [isrc_flds srcs_flds]; [rewrite H0; tauto|apply IH].
  - intros off f r IH is_ bl bl' m D n. destruct is_; cbn [isrc_flds srcs_flds]; [rewrite H0; tauto|apply IH].
  - intros t IHt r IH is_ bl bl' m D n. destruct is_; cbn [isrc_flds srcs_flds]; [rewrite H0; tauto|].
    rewrite Forall_app, IHt, IH. tauto.
  - intros f lf r IH is_ bl bl' m D n. destruct is_ as [|i is_]; cbn [isrc_flds srcs_flds]; [rewrite H0; tauto|].
    rewrite Forall_app, <- IH. destruct i; rewrite ?H0; try tauto. rewrite <- (HA bl). tauto.
Qed.

Definition src_wt (s : vty * N * vval * bool) : Prop := let '(t, a, v, b) := s in wf_ty t /\ vok t v.
Lemma srcs_wt :
  (forall t, wf_ty t -> forall i, iwt t i -> Forall src_wt (srcs t i)) /\
  (forall fs, wf_flds fs -> forall is_, iwt_flds fs is_ -> Forall src_wt (srcs_flds fs is_)).
Proof.
  assert (G : forall t a v b, wf_ty t -> vok t v -> Forall src_wt [(t, a, v, b)]) by (intros; repeat constructor; auto).
  assert (GA : forall f ai, fty_ok f -> aok f ai -> Forall src_wt (asrcs f ai)).
  { intros f ai Hf Ha. destruct ai; cbn [asrcs aok] in *; auto; apply G; try (now apply tslice_wf); apply tslice_vok; tauto. }
  apply vty_flds_ind.
  - intros f Hwf i Hi. destruct i; cbn [iwt srcs] in *; auto; apply G; tauto.
  - intros f k Hwf i Hi. destruct i; cbn [iwt srcs] in *; auto; try (apply G; tauto). apply GA; tauto.
  - intros t IH Hwf i Hi. destruct i; cbn [iwt srcs] in *; auto; apply G; tauto.
  - intros kd hs ha fs IH Hwf i Hi. destruct i; cbn [iwt srcs] in *; auto; try (apply G; tauto). apply IH; [apply Hwf|exact Hi].
  - intros _ is_ Hi. destruct is_; constructor.
  - intros off f r IH Hwf is_ Hi. destruct is_ as [|[] is_]; cbn [iwt_flds srcs_flds] in *; try contradiction. apply IH; [apply Hwf|tauto].
  - intros off f r IH Hwf is_ Hi. destruct is_ as [|[] is_]; cbn [iwt_flds srcs_flds] in *; try contradiction. apply IH; [apply Hwf|tauto].
  - intros t IHt r IH [Hwt Hwr] is_ Hi. destruct is_ as [|i is_]; cbn [iwt_flds srcs_flds] in *; try contradiction.
    apply Forall_app. split; [apply IHt; tauto|apply IH; tauto].
  - intros f lf r IH (Hf & Hwr) is_ Hi. destruct is_ as [|[] is_]; cbn [iwt_flds srcs_flds] in *; try contradiction.
    apply Forall_app. split; [apply GA; tauto|apply IH; tauto].
Qed.
Lemma srcs_boxes :
  (forall t i t' a v, In (t', a, v, true) (srcs t i) -> In (box_block t' a v) (iboxes t i)) /\
  (forall fs is_ t' a v, In (t', a, v, true) (srcs_flds fs is_) -> In (box_block t' a v) (iboxes_flds fs is_)).
Proof.
  assert (GA : forall f ai t' a v, ~ In (t', a, v, true) (asrcs f ai)).
  { intros f ai t' a v H. destruct ai; cbn [asrcs] in *; try contradiction; destruct H as [E|[]]; inversion E. }
  apply vty_flds_ind.
  - intros f i t' a v H. destruct i; cbn [srcs iboxes] in *; try contradiction; destruct H as [E|[]]; inversion E; subst. left; reflexivity.
  - intros f k i t' a v H. destruct i; cbn [srcs iboxes] in *; try contradiction; try (exfalso; eapply GA; exact H); destruct H as [E|[]]; inversion E; subst. left; reflexivity.
  - intros t IH i t' a v H. destruct i; cbn [srcs iboxes] in *; try contradiction; auto; destruct H as [E|[]]; inversion E; subst. left; reflexivity.
  - intros kd hs ha fs IH i t' a v H. destruct i; cbn [srcs iboxes] in *; try contradiction; auto; destruct H as [E|[]]; inversion E; subst. left; reflexivity.
  - intros is_ t' a v H. destruct is_; contradiction.
  - intros off f r IH is_ t' a v H. destruct is_; cbn [srcs_flds iboxes_flds] in *; [contradiction|auto].
  - intros off f r IH is_ t' a v H. destruct is_; cbn [srcs_flds iboxes_flds] in *; [contradiction|auto].
  - intros t IHt r IH is_ t' a v H. destruct is_; cbn [srcs_flds iboxes_flds] in *; [contradiction|].
    apply in_app_or in H. apply in_or_app. destruct H; auto.
  - intros f lf r IH is_ t' a v H. destruct is_ as [|i is_]; cbn [srcs_flds iboxes_flds] in *; [contradiction|].
    apply in_app_or in H. destruct H as [H|H]; [|auto]. exfalso. destruct i; try contradiction. eapply GA; exact H.
Qed.

(** What an initializer refers to is determined by the memory: the values it is annotated with are
    those that are there. *)
Lemma src_unique w bl t a v v' : wf_ty t -> incl bl (w_blocks w) -> vok t v -> vok t v' ->
  src_ok bl (w_mem w) t a v -> src_ok bl (w_mem w) t a v' -> v = v'.
Proof.
  intros Hwf Hb Hv Hv' ((P0 & Pm & PW & Pl) & R) ((P0' & Pm' & PW' & Pl') & R').
  assert (E := view_ok t w a v Hwf (conj Hv (conj (conj P0 (conj Pm (conj PW (live_incl _ _ _ _ Pl Hb)))) R))).
  assert (E' := view_ok t w a v' Hwf (conj Hv' (conj (conj P0 (conj Pm (conj PW' (live_incl _ _ _ _ Pl' Hb)))) R'))).
  rewrite E in E'. now injection E'.
Qed.
Lemma ibases_strip :
  (forall t i, ibases t (strip i) = ibases t i) /\ (forall fs is_, ibases_flds fs (map strip is_) = ibases_flds fs is_).
Proof.
  unfold ibases, ibases_flds. apply vty_flds_ind.
  - intros f i. destruct i; reflexivity.
  - intros f k i. destruct i; reflexivity.
  - intros t IH i. destruct i; try reflexivity. apply IH.
  - intros kd hs ha fs IH i. destruct i; try reflexivity. apply IH.
  - intros [|i is_]; reflexivity.
  - intros off f r IH [|i is_]; [reflexivity|]. apply IH.
  - intros off f r IH [|i is_]; [reflexivity|]. apply IH.
  - intros t IHt r IH [|i is_]; [reflexivity|]. cbn [map iboxes_flds]. now rewrite !map_app, IHt, IH.
  - intros f lf r IH [|i is_]; [reflexivity|]. apply IH.
Qed.
Lemma strip_unique w bl' D n : incl bl' (w_blocks w) ->
  (forall t, wf_ty t -> forall i j, iwt t i -> iwt t j -> isrc (w_blocks w) bl' (w_mem w) D n t i ->
     isrc (w_blocks w) bl' (w_mem w) D n t j -> strip i = strip j -> i = j) /\
  (forall fs, wf_flds fs -> forall is_ js, iwt_flds fs is_ -> iwt_flds fs js -> isrc_flds (w_blocks w) bl' (w_mem w) D n fs is_ ->
     isrc_flds (w_blocks w) bl' (w_mem w) D n fs js -> map strip is_ = map strip js -> is_ = js).
Proof.
  intros Hb.
  assert (GA : forall f ai aj, fty_ok f -> aok f ai -> aok f aj -> asrc bl' (w_mem w) D n f ai -> asrc bl' (w_mem w) D n f aj ->
    astrip ai = astrip aj -> ai = aj).
  { intros f ai aj Hf Hi Hj Si Sj E. destruct ai as [g|g|g|vs|vs|a k vs|a k vs|vs|ws fin], aj as [g0|g0|g0|vs0|vs0|a0 k0 vs0|a0 k0 vs0|vs0|ws0 fin0]; cbn [astrip] in E; try discriminate E; try (exact E); injection E as -> ->;
      cbn [asrc aok] in *; f_equal;
      (assert (G : VRec [VArr vs] = VRec [VArr vs0])
         by (eapply (src_unique w bl' (tslice f k0)); [now apply tslice_wf|exact Hb|apply tslice_vok; tauto|apply tslice_vok; tauto|apply Si|apply Sj]);
       now injection G). }
  assert (GT : forall t i j, wf_ty t -> iwt t i -> iwt t j -> isrc (w_blocks w) bl' (w_mem w) D n t i ->
     isrc (w_blocks w) bl' (w_mem w) D n t j -> strip i = strip j ->
     match i with ICopy _ _ | IBox _ _ | IOwned _ _ => i = j | _ => True end).
  { intros t i j Hwf Hi Hj Si Sj E. destruct i as [| | | | | | |a v|a v|a v]; try exact I; destruct j as [| | | | | | |a0 v0|a0 v0|a0 v0]; try discriminate E; injection E as ->; f_equal.
    - assert (Hv : vok t v) by (destruct t; apply Hi). assert (Hv' : vok t v0) by (destruct t; apply Hj).
      eapply (src_unique w bl' t); eauto; [destruct t; apply Si|destruct t; apply Sj].
    - assert (Hv : vok t v) by (destruct t; apply Hi). assert (Hv' : vok t v0) by (destruct t; apply Hj).
      eapply (src_unique w (w_blocks w) t); eauto; [apply incl_refl|destruct t; apply Si|destruct t; apply Sj].
    - assert (Hv : vok t v) by (destruct t; apply Hi). assert (Hv' : vok t v0) by (destruct t; apply Hj).
      eapply (src_unique w bl' t); eauto; [destruct t; apply Si|destruct t; apply Sj]. }
  apply vty_flds_ind.
  - intros f Hwf i j Hi Hj Si Sj E. pose proof (GT (TFixed f) i j Hwf Hi Hj Si Sj E) as G. destruct i as [|v1|a v| | | | |a v|a v|a v]; try exact G; destruct j as [|v1'|a0 v0| | | | |a0 v0|a0 v0|a0 v0]; try discriminate E; try exact E; try contradiction.
    injection E as ->. f_equal. assert (Ev : VFix v = VFix v0) by (eapply (src_unique w bl' (TFixed f)); eauto; [apply Si|apply Sj]). now injection Ev.
  - intros f k Hwf i j Hi Hj Si Sj E. pose proof (GT (TArray f k) i j Hwf Hi Hj Si Sj E) as G. destruct i; try exact G; destruct j; try discriminate E; try contradiction.
    injection E as -> E. f_equal. eapply GA; eauto; [apply Hi|apply Hj].
  - intros t IH Hwf i j Hi Hj Si Sj E. pose proof (GT (TNew t) i j Hwf Hi Hj Si Sj E) as G. destruct i; try exact G; destruct j; try discriminate E; try contradiction.
    injection E as E. f_equal. eapply IH; eauto.
  - intros kd hs ha fs IH Hwf i j Hi Hj Si Sj E. pose proof (GT (TRec kd hs ha fs) i j Hwf Hi Hj Si Sj E) as G. destruct i; try exact G; destruct j; try discriminate E; try contradiction.
    injection E as E. f_equal. eapply IH; eauto. apply Hwf.
  - intros _ is_ js Hi Hj _ _ _. destruct is_, js; try contradiction. reflexivity.
  - intros off f r IH Hwf is_ js Hi Hj Si Sj E. destruct is_ as [|[] is_], js as [|[] js]; try contradiction; try discriminate E.
    injection E as -> E. f_equal. apply IH; auto; [apply Hwf|apply Hi|apply Hj].
  - intros off f r IH Hwf is_ js Hi Hj Si Sj E. destruct is_ as [|[] is_], js as [|[] js]; try contradiction; try discriminate E.
    injection E as -> E. f_equal. apply IH; auto; [apply Hwf|apply Hi|apply Hj].
  - intros t IHt r IH Hwf is_ js Hi Hj Si Sj E. destruct is_ as [|i is_], js as [|j js]; try contradiction.
    cbn [map] in E. injection E as E1 E2. f_equal; [eapply IHt; eauto; [apply Hwf|apply Hi|apply Hj|apply Si|apply Sj]|].
    apply IH; auto; [apply Hwf|apply Hi|apply Hj|apply Si|apply Sj].
  - intros f lf r IH Hwf is_ js Hi Hj Si Sj E. destruct is_ as [|[] is_], js as [|[] js]; try contradiction; try discriminate E.
    injection E as E1 E2. f_equal; [f_equal; eapply GA; eauto; [apply Hwf|apply Hi|apply Hj|apply Si|apply Sj]|].
    apply IH; auto; [apply Hwf|apply Hi|apply Hj|apply Si|apply Sj].
Qed.

(** Carrying a usable initializer to another world and destination. *)
Lemma ready_transport w w1 t i D n D1 n1 :
  wf_ty t -> init_ready w t i D n ->
  (forall b, In b (iboxes t i) -> In b (w_blocks w1)) ->
  (forall a k, live (without (w_blocks w) (ibases t i)) a k -> apart a k D n ->
     live (without (w_blocks w1) (ibases t i)) a k) ->
  (forall a k, live (w_blocks w) a k -> apart a k D n ->
     (forall x, a <= x < a + k -> w_mem w1 x = w_mem w x) /\ apart a k D1 n1) ->
  init_ready w1 t i D1 n1.
Proof.
  intros Hwf (A1 & A2 & A3) Hb Hl Hm. split; [exact A1|]. split; [exact A2|].
  apply isrc_srcs. apply isrc_srcs in A3. rewrite Forall_forall in *. intros (((t', a), v), b) Hin.
  specialize (A3 _ Hin). pose proof (proj1 srcs_wt t Hwf i A1) as Hw. rewrite Forall_forall in Hw.
  destruct (Hw _ Hin) as [Hwf' Hv]. cbn [src_cond] in *.
  destruct b.
  - destruct A3 as (B1 & ((P0 & Pm & PW & Pl) & Hr) & Ha). destruct (Hm _ _ Pl Ha) as [M1 M2].
    pose proof (Hb _ (proj1 srcs_boxes _ _ _ _ _ Hin)) as Hin1. split; [exact Hin1|]. split; [|exact M2].
    split; [repeat split; auto|].
    + right. eexists. split; [exact Hin1|]. cbn. lia.
    + apply (repr_shift t' (w_mem w) _ a a v); auto. intros j Hj. apply M1. lia.
  - destruct A3 as (((P0 & Pm & PW & Pl) & Hr) & Ha).
    assert (Pl' : live (w_blocks w) a (vsize t' v)) by (eapply live_incl; [exact Pl|apply without_incl]).
    destruct (Hm _ _ Pl' Ha) as [M1 M2]. split; [|exact M2].
    split; [repeat split; auto|]. apply (repr_shift t' (w_mem w) _ a a v); auto. intros j Hj. apply M1. lia.
Qed.
Lemma ready_narrow w t i D n D1 n1 :
  wf_ty t -> init_ready w t i D n -> n1 = 0 \/ D <= D1 /\ D1 + n1 <= D + n -> init_ready w t i D1 n1.
Proof.
  intros Hwf Hr Hn. apply (ready_transport w w t i D n); auto.
  - intros b Hb. destruct Hr as (_ & _ & A3). eapply (proj1 isrc_boxes_all); eauto.
  - intros a k _ Ha. split; [auto|]. unfold apart in *. lia.
Qed.
Lemma ready_usable w t i D n : wf_ty t -> init_ready w t i D n -> usable w t i.
Proof. intros Hwf H. eapply ready_narrow; eauto. Qed.
(** Memory changed only inside the (excluded) destination range. *)
Lemma ready_mem w w1 t i D n :
  wf_ty t -> init_ready w t i D n -> w_blocks w1 = w_blocks w -> same_outside (w_mem w) (w_mem w1) D n -> init_ready w1 t i D n.
Proof.
  intros Hwf Hr Hb Hm. apply (ready_transport w w1 t i D n); auto.
  - intros b Hin. rewrite Hb. destruct Hr as (_ & _ & A3). eapply (proj1 isrc_boxes_all); eauto.
  - rewrite Hb. auto.
  - intros a k _ Ha. split; [|exact Ha]. intros x Hx. apply Hm. unfold apart in Ha. lia.
Qed.

(** ** blocks *)
Lemma FOP_in {A} (R : A -> A -> Prop) l x y : ForallOrdPairs R l -> In x l -> In y l -> x = y \/ R x y \/ R y x.
Proof.
  induction 1 as [|z l Hz H IH]; intros Hx Hy; [contradiction|]. rewrite Forall_forall in Hz.
  destruct Hx as [<-|Hx], Hy as [<-|Hy]; auto.
Qed.
Lemma wf_same_base bl b c : wf_blocks bl -> In b bl -> In c bl -> b_base b = b_base c -> b = c.
Proof.
  intros [H1 H2] Hb Hc E. destruct (FOP_in _ _ _ _ H2 Hb Hc) as [H|H]; auto. exfalso.
  pose proof (H1 _ Hb). pose proof (H1 _ Hc). unfold blocks_apart in H. lia.
Qed.
Lemma wf_blocks_disj bl b c : wf_blocks bl -> In b bl -> In c bl -> b_base b <> b_base c -> blocks_apart b c.
Proof.
  intros [H1 H2] Hb Hc E. destruct (FOP_in _ _ _ _ H2 Hb Hc) as [H|[H|H]]; [congruence|auto|].
  unfold blocks_apart in *. lia.
Qed.
(** A live range that avoids a block survives when the block is released. *)
Lemma live_without bl b a k : wf_blocks bl -> In b bl -> live bl a k -> apart a k (b_base b) (b_size b) ->
  live (without bl [b_base b]) a k.
Proof.
  intros Hw Hb [->|(c & Hc & L1 & L2)] Ha; [left; auto|].
  destruct (N.eq_dec k 0) as [->|Hk]; [left; auto|]. right. exists c. split; [|auto].
  apply in_without. split; auto. intros [E|[]]. pose proof (wf_same_base _ _ _ Hw Hb Hc E). subst c.
  destruct Hw as [Hw _]. pose proof (Hw _ Hb). unfold apart in Ha. lia.
Qed.
Lemma without_comm bl x y : without (without bl x) y = without (without bl y) x.
Proof. rewrite !without_app. apply without_ext. intros z. rewrite !in_app_iff. tauto. Qed.

Lemma untouched_upd w w' a n bs e D b :
  wf_blocks (w_blocks w) -> upd w w' a n bs e -> In b (w_blocks w) -> b_base b <= a -> a + n <= b_base b + b_size b ->
  incl bs D -> In (b_base b) D -> untouched w w' D.
Proof.
  intros Hw U Hb H1 H2 Hi HD c Hc Hn. split.
  - rewrite (upd_blocks _ _ _ _ _ _ U). apply in_without. split; auto.
  - intros x Hx. apply (upd_mem _ _ _ _ _ _ U).
    assert (b_base b <> b_base c) by (intros E; apply Hn; rewrite <- E; exact HD).
    pose proof (wf_blocks_disj _ _ _ Hw Hb Hc H). unfold blocks_apart in *. lia.
Qed.
Lemma untouched_upd0 w w' bs e D : upd w w' 0 0 bs e -> incl bs D -> untouched w w' D.
Proof.
  intros U Hi c Hc Hn. split.
  - rewrite (upd_blocks _ _ _ _ _ _ U). apply in_without. split; auto.
  - intros x Hx. apply (upd_mem _ _ _ _ _ _ U). lia.
Qed.
Lemma untouched_refl w D : untouched w w D.
Proof. intros b Hb _. auto. Qed.
Lemma untouched_mono w w' D D' : untouched w w' D -> incl D D' -> untouched w w' D'.
Proof. intros H Hi b Hb Hn. apply H; auto. Qed.
Lemma untouched_trans w w1 w2 D1 D2 :
  untouched w w1 D1 -> untouched w1 w2 D2 -> untouched w w2 (D1 ++ D2).
Proof.
  intros H1 H2 b Hb Hn. rewrite in_app_iff in Hn. destruct (H1 b Hb) as [A1 A2]; [tauto|].
  destruct (H2 b A1) as [B1 B2]; [tauto|]. split; auto. intros x Hx. rewrite B2, A2; auto.
Qed.
(** Fresh bases do not matter for the blocks that were there before. *)
Lemma untouched_trans_fresh w w1 w2 D1 D2 :
  untouched w w1 D1 -> untouched w1 w2 D2 -> (forall b, In b (w_blocks w) -> In (b_base b) D2 -> In (b_base b) D1) ->
  untouched w w2 D1.
Proof.
  intros H1 H2 Hf b Hb Hn. destruct (H1 b Hb Hn) as [A1 A2].
  destruct (H2 b A1) as [B1 B2]; [intros H; apply Hn, Hf; auto|]. split; auto. intros x Hx. rewrite B2, A2; auto.
Qed.
(** A live object survives when its storage is untouched. *)
Lemma untouched_obj w w' D t a v b :
  wf_ty t -> untouched w w' D -> obj_at w t a v -> In b (w_blocks w) -> ~ In (b_base b) D ->
  b_base b <= a -> a + vsize t v <= b_base b + b_size b -> obj_at w' t a v.
Proof.
  intros Hwf Hu (Hv & (P0 & Pm & PW & Pl) & Hr) Hb Hn L1 L2. destruct (Hu b Hb Hn) as [A1 A2].
  split; auto. split; [repeat split; auto; right; exists b; auto|].
  apply (repr_shift t (w_mem w) _ a a v); auto. intros j Hj. apply A2. lia.
Qed.
