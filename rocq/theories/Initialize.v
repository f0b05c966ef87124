(** Initialize.v - the central lemma about [initialize]. *)
From Verif Require Export Construct.

(** ** struct headers *)
Fixpoint hvals (fs : flds) (is_ : list init) : list (N * list cell) :=
  match fs, is_ with
  | FNormal off _ r, IFixed v :: is' | FLength off _ r, IFixed v :: is' => (off, v) :: hvals r is'
  | FVar _ r, _ :: is' | FArr _ _ r, _ :: is' => hvals r is'
  | _, _ => []
  end.

Definition hstep (hs : N) (acc : list cell) (p : N * list cell) : list cell :=
  map (fun x => if (fst p <=? x) && (x <? fst p + len (snd p))
                then nth (N.to_nat (x - fst p)) (snd p) Un
                else nth (N.to_nat x) acc Un) (upto hs).
Lemma header_bytes_fold hs vals : header_bytes hs vals = fold_left (hstep hs) vals (repeat Un (N.to_nat hs)).
Proof.
  unfold header_bytes. generalize (repeat Un (N.to_nat hs)). induction vals as [|[off bs] vals IH]; intros acc; [reflexivity|].
  cbn [fold_left]. apply IH.
Qed.
Lemma hstep_len hs acc p : len (hstep hs acc p) = hs.
Proof. unfold hstep. now rewrite len_map, len_upto. Qed.
Lemma hfold_len hs vals acc : len acc = hs -> len (fold_left (hstep hs) vals acc) = hs.
Proof. revert acc; induction vals; intros acc H; cbn [fold_left]; auto. apply IHvals, hstep_len. Qed.
Lemma header_len hs vals : len (header_bytes hs vals) = hs.
Proof. rewrite header_bytes_fold. apply hfold_len. unfold len. rewrite repeat_length. lia. Qed.
Lemma hfold_out hs vals acc x :
  x < hs -> (forall p, In p vals -> x < fst p \/ fst p + len (snd p) <= x) ->
  nth (N.to_nat x) (fold_left (hstep hs) vals acc) Un = nth (N.to_nat x) acc Un.
Proof.
  revert acc; induction vals as [|p vals IH]; intros acc Hx Ho; cbn [fold_left]; [reflexivity|].
  rewrite IH by (auto; intros; apply Ho; right; auto).
  unfold hstep. rewrite nth_upto_map by auto. destruct (Ho p (or_introl eq_refl)).
  - destruct (N.leb_spec (fst p) x); [lia|reflexivity].
  - destruct (N.ltb_spec x (fst p + len (snd p))); [lia|]. now rewrite andb_false_r.
Qed.
Definition ranges_apart (p q : N * list cell) : Prop :=
  fst p + len (snd p) <= fst q \/ fst q + len (snd q) <= fst p.
Lemma hfold_in hs vals : ForallOrdPairs ranges_apart vals -> forall acc p i,
  In p vals -> fst p + len (snd p) <= hs -> i < len (snd p) ->
  nth (N.to_nat (fst p + i)) (fold_left (hstep hs) vals acc) Un = nth (N.to_nat i) (snd p) Un.
Proof.
  induction 1 as [|q vals Hq H IH]; intros acc p i Hin Hp Hi; [contradiction|]. cbn [fold_left].
  destruct Hin as [->|Hin]; [|now apply IH].
  rewrite hfold_out; [|lia|].
  - unfold hstep. rewrite nth_upto_map by lia.
    destruct (N.leb_spec (fst p) (fst p + i)); [|lia]. destruct (N.ltb_spec (fst p + i) (fst p + len (snd p))); [|lia].
    cbn [andb]. f_equal. lia.
  - intros r Hr. rewrite Forall_forall in Hq. specialize (Hq r Hr). unfold ranges_apart in Hq. lia.
Qed.

Lemma hvals_head fs is_ : iwt_flds fs is_ ->
  forall p, In p (hvals fs is_) -> exists f, In (fst p, f) (head_fields fs) /\ len (snd p) = f_size f.
Proof.
  revert is_. induction fs as [|off f r IH|off f r IH|t r IH|f lf r IH]; intros is_ Hi p Hp.
  - destruct is_; contradiction.
  - destruct is_ as [|[] is_]; cbn in *; try contradiction. destruct Hp as [<-|Hp].
    + exists f. cbn. tauto.
    + destruct (IH is_ (proj2 Hi) p Hp) as (g & G1 & G2). exists g. auto.
  - destruct is_ as [|[] is_]; cbn in *; try contradiction. destruct Hp as [<-|Hp].
    + exists f. cbn. tauto.
    + destruct (IH is_ (proj2 Hi) p Hp) as (g & G1 & G2). exists g. auto.
  - destruct is_ as [|i is_]; cbn in *; try contradiction. apply (IH is_); tauto.
  - destruct is_ as [|[] is_]; cbn in *; try contradiction. apply (IH is_); tauto.
Qed.
Lemma hvals_apart fs is_ : iwt_flds fs is_ -> ForallOrdPairs hf_disjoint (head_fields fs) ->
  ForallOrdPairs ranges_apart (hvals fs is_).
Proof.
  revert is_. induction fs as [|off f r IH|off f r IH|t r IH|f lf r IH]; intros is_ Hi Hd.
  - destruct is_; constructor.
  - destruct is_ as [|[] is_]; cbn in *; try contradiction. inversion Hd as [|x l Hx Hd']; subst. constructor; [|apply IH; tauto].
    apply Forall_forall. intros p Hp. destruct (hvals_head r is_ (proj2 Hi) p Hp) as (g & G1 & G2).
    rewrite Forall_forall in Hx. specialize (Hx _ G1). unfold hf_disjoint, ranges_apart in *. cbn in *. destruct Hi as [-> _]. rewrite G2. exact Hx.
  - destruct is_ as [|[] is_]; cbn in *; try contradiction. inversion Hd as [|x l Hx Hd']; subst. constructor; [|apply IH; tauto].
    apply Forall_forall. intros p Hp. destruct (hvals_head r is_ (proj2 Hi) p Hp) as (g & G1 & G2).
    rewrite Forall_forall in Hx. specialize (Hx _ G1). unfold hf_disjoint, ranges_apart in *. cbn in *. destruct Hi as [-> _]. rewrite G2. exact Hx.
  - destruct is_ as [|i is_]; cbn in *; try contradiction. apply IH; tauto.
  - destruct is_ as [|[] is_]; cbn in *; try contradiction. apply IH; tauto.
Qed.

(** the tail part of a record's representation *)
Fixpoint repr_tail (m : N -> cell) (fs : flds) (a : N) (vs : list vval) (pos : N) : Prop :=
  match fs, vs with
  | FNil, [] => True
  | FNormal _ _ r, VFix _ :: vs' | FLength _ _ r, VFix _ :: vs' => repr_tail m r a vs' pos
  | FVar t r, v :: vs' =>
      repr m t (a + up pos (sp_align t)) v /\
      repr_tail m r a vs' (up pos (sp_align t) + sp_size t (vshape v))
  | FArr f lf r, VArr xs :: vs' =>
      rd m (a + up pos (f_align f)) (len xs * f_size f) = concat xs /\
      repr_tail m r a vs' (up pos (f_align f) + len xs * f_size f)
  | _, _ => False
  end.

Lemma repr_tail_frame fs : wf_flds fs -> forall m m' a vs cs pos,
  vok_flds fs vs cs ->
  (forall x, a + pos <= x < a + sp_end fs (map vshape vs) pos -> m' x = m x) ->
  repr_tail m fs a vs pos -> repr_tail m' fs a vs pos.
Proof.
  induction fs as [|off f r IH|off f r IH|t r IH|f lf r IH]; intros Hwf m m' a vs cs pos Hv Hs Hr.
  - destruct vs; auto.
  - destruct vs as [|[] vs]; try contradiction. exact (IH (proj2 Hwf) m m' a vs cs pos (proj2 Hv) Hs Hr).
  - destruct vs as [|[] vs]; try contradiction. exact (IH (proj2 Hwf) m m' a vs cs pos (proj2 Hv) Hs Hr).
  - destruct vs as [|v vs]; try contradiction. cbn [wf_flds vok_flds map sp_end repr_tail] in *. destruct Hwf as [Hwt Hwr].
    pose proof (sp_end_ge r Hwr (map vshape vs) (up pos (sp_align t) + sp_size t (vshape v))).
    pose proof (up_ge pos (sp_align t) (sp_align_pos _ Hwt)). split.
    + apply (repr_shift t m m' (a + up pos (sp_align t)) (a + up pos (sp_align t)) v); try tauto. intros i Hi. apply Hs. unfold vsize in Hi. lia.
    + eapply IH; [exact Hwr|apply Hv| |apply Hr]. intros x Hx. apply Hs. lia.
  - destruct vs as [|[|xs| |] vs]; try contradiction. cbn [wf_flds vok_flds map vshape sp_end repr_tail] in *. destruct Hwf as (Hf & Hwr).
    pose proof (sp_end_ge r Hwr (map vshape vs) (up pos (f_align f) + len xs * f_size f)).
    pose proof (up_ge pos (f_align f) (pow2_pos _ (proj1 Hf))). split.
    + rewrite <- (proj1 Hr). apply rd_ext. intros x Hx. apply Hs. lia.
    + eapply IH; [exact Hwr|apply Hv| |apply Hr]. intros x Hx. apply Hs. lia.
Qed.

Lemma repr_flds_join fs m a pos : forall is_ vs cs,
  iwt_flds fs is_ -> ivals fs is_ cs = Some vs ->
  (forall p, In p (hvals fs is_) -> rd m (a + fst p) (len (snd p)) = snd p) ->
  repr_tail m fs a vs pos -> repr_flds m fs a vs pos.
Proof.
  revert pos. induction fs as [|off f r IH|off f r IH|t r IH|f lf r IH]; intros pos is_ vs cs Hi E Hh Hr.
  - destruct vs; auto.
  - destruct is_ as [|[] is_]; try contradiction. cbn [iwt_flds ivals hvals] in *.
    destruct (ivals r is_ cs) as [vs'|] eqn:Ev; [|discriminate]. injection E as <-. cbn [repr_flds repr_tail] in *. split.
    + rewrite <- (proj1 Hi). apply (Hh (off, v)). left; auto.
    + eapply IH; eauto; [tauto|]. intros; apply Hh; right; auto.
  - destruct is_ as [|[] is_]; try contradiction. cbn [iwt_flds ivals hvals] in *.
    destruct (ivals r is_ cs) as [vs'|] eqn:Ev; [|discriminate]. injection E as <-. cbn [repr_flds repr_tail] in *. split.
    + rewrite <- (proj1 Hi). apply (Hh (off, v)). left; auto.
    + eapply IH; eauto; [tauto|]. intros; apply Hh; right; auto.
  - destruct is_ as [|i is_]; try contradiction. cbn [iwt_flds ivals hvals] in *.
    destruct (ival t i) as [v|] eqn:Et; [|discriminate].
    destruct (ivals r is_ cs) as [vs'|] eqn:Ev; [|discriminate]. injection E as <-. cbn [repr_flds repr_tail] in *.
    split; [tauto|]. eapply IH; eauto; tauto.
  - destruct is_ as [|[] is_]; try contradiction. cbn [iwt_flds ivals hvals] in *.
    destruct (snd (arun f (lf cs) ai)) as [xs|] eqn:Ea; [|discriminate].
    destruct (ivals r is_ cs) as [vs'|] eqn:Ev; [|discriminate]. injection E as <-. cbn [repr_flds repr_tail] in *.
    split; [tauto|]. eapply IH; eauto; tauto.
Qed.

(** ** the main induction *)
Definition build_res (t : vty) (w : world) (i : init) (dst : N) (r : res world unit) : Prop :=
  match snd (irun t i) with
  | Some v => exists w', r = Ok tt w' /\ upd w w' dst (isize t i) (ibases t i) (fst (irun t i)) /\ repr (w_mem w') t dst v
  | None => exists w', r = Panic w' /\ upd w w' dst (isize t i) (ibases t i) (fst (irun t i))
  end.

Lemma build_src w bl' D n t a v i dst :
  wf_ty t -> (i = ICopy a v \/ i = IBox a v \/ i = IOwned a v) -> ready w bl' D n t i ->
  place_ok bl' t dst (isize t i) -> D <= dst -> dst + isize t i <= D + n ->
  build_res t w i dst (initialize t i dst (sp_lay t (ishape t i)) w).
Proof.
  intros Hwf Hc (Hi & Hs & _ & Hb) (P0 & Pm & PW & Pl) HD1 HD2.
  assert (Hb' : incl bl' (w_blocks w)) by (eapply incl_tran; [exact Hb|apply without_incl]).
  assert (Esh : ishape t i = vshape v) by (destruct Hc as [-> | [-> | ->]]; destruct t; reflexivity).
  unfold isize in *. rewrite Esh in *. fold (vsize t v) in *.
  assert (Hv : vok t v) by (destruct Hc as [-> | [-> | ->]]; destruct t; cbn [iwt] in Hi; tauto).
  assert (Hap : apart a (vsize t v) D n).
  { destruct Hc as [-> | [-> | ->]]; destruct t; cbn [isrc] in Hs; tauto. }
  assert (Ho : obj_at w t a v).
  { destruct Hc as [-> | [-> | ->]].
    - eapply (src_obj _ bl'); eauto. destruct t; cbn [isrc] in Hs; tauto.
    - eapply (src_obj _ (w_blocks w)); eauto; [|apply incl_refl]. destruct t; cbn [isrc] in Hs; tauto.
    - eapply (src_obj _ bl'); eauto. destruct t; cbn [isrc] in Hs; tauto. }
  destruct Ho as (_ & (Q0 & Qm & QW & Ql) & Hr).
  assert (Hap2 : apart a (vsize t v) dst (vsize t v)) by (unfold apart in *; lia).
  assert (Hl : live (w_blocks w) dst (vsize t v)) by (eapply live_incl; eauto).
  assert (Hrep : repr (move (w_mem w) a dst (vsize t v)) t dst v).
  { apply (repr_shift t (w_mem w) _ a dst v); auto. intros j Hj. now apply move_in. }
  assert (Hcopy : forall al, a mod al = 0 -> dst mod al = 0 ->
     copy_nonoverlapping a dst (vsize t v) al w = Ok tt (set_mem w (move (w_mem w) a dst (vsize t v)))).
  { intros al A1 A2. apply copy_ok; auto. }
  unfold build_res, isize. rewrite Esh. fold (vsize t v). destruct Hc as [-> | [-> | ->]].
  - replace (irun t (ICopy a v)) with (@nil event, Some v) by (destruct t; reflexivity). cbn [fst snd].
    replace (ibases t (ICopy a v)) with (@nil N) by (destruct t; reflexivity).
    eexists. split; [|split; [apply upd_move|exact Hrep]].
    transitivity (copy_nonoverlapping a dst (lay_size (sp_lay t (vshape v))) 1 w); [destruct t; reflexivity|].
    rewrite lay_size_sp by auto. apply Hcopy; apply N.mod_1_r.
  - replace (irun t (IBox a v)) with ([EDealloc a (vsize t v) (sp_align t)], Some v) by (destruct t; reflexivity). cbn [fst snd].
    replace (ibases t (IBox a v)) with [a] by (destruct t; reflexivity).
    eexists. split; [|split; [|]].
    + transitivity ((copy_nonoverlapping a dst (lay_size (sp_lay t (vshape v))) 1 ;;;
                     dealloc a (lay_size (sp_lay t (vshape v))) (valign t)) w); [destruct t; reflexivity|].
      rewrite lay_size_sp by auto. rewrite valign_sp by auto.
      step (Hcopy 1 (N.mod_1_r _) (N.mod_1_r _)). apply dealloc_ok. cbn. destruct t; cbn [isrc] in Hs; apply Hs.
    + repeat split; cbn; auto. intros x Hx. now apply move_out.
    + cbn. exact Hrep.
  - replace (irun t (IOwned a v)) with (@nil event, Some v) by (destruct t; reflexivity). cbn [fst snd].
    replace (ibases t (IOwned a v)) with (@nil N) by (destruct t; reflexivity).
    assert (Hhs : head_size t = 1) by (destruct t; cbn [iwt] in Hi; tauto).
    eexists. split; [|split; [apply upd_move|exact Hrep]].
    transitivity (copy_nonoverlapping a dst (lay_size (sp_lay t (vshape v)) * head_size t) (head_align t) w); [destruct t; reflexivity|].
    rewrite lay_size_sp by auto. rewrite Hhs, N.mul_1_r.
    apply Hcopy; (eapply pow2_mod; [apply head_align_pow2; auto|exact (sp_align_pow2 t Hwf)|apply head_align_le; auto|auto]).
Qed.

Definition temps_events (temps : list (fty * list cell)) : list event :=
  concat (map (fun p => drop_events (fst p) [snd p]) temps).
Lemma drop_temps_ok temps w : drop_temps temps w = Ok tt (add_log w (temps_events temps)).
Proof.
  unfold drop_temps, temps_events. revert w. induction temps as [|[f v] temps IH]; intros w; cbn [for_each map concat].
  - unfold ret. now rewrite add_log_nil.
  - step (drop_value_ok f v w). rewrite IH, add_log_app. reflexivity.
Qed.
Lemma unwind_ok kd temps r is_ w bl' D n :
  wf_flds r -> readys w bl' D n r is_ ->
  exists w', unwind_rec kd temps r is_ w = Ok tt w' /\
    upd w w' 0 0 (ibases_flds r is_) (unwinds kd (temps_events temps) (idrops r is_)).
Proof.
  intros Hwr H. destruct kd; cbn [unwind_rec unwinds].
  - apply (proj2 drop_init_all r Hwr w is_ bl' D n H).
  - set (w1 := add_log w (temps_events temps)).
    assert (U1 : upd w w1 0 0 [] (temps_events temps)) by apply upd_log.
    assert (H1 : readys w1 bl' D n r is_) by exact H.
    destruct (proj1 (proj2 drop_init_all r Hwr w1 is_ bl' D n H1)) as (w' & E & U).
    exists w'. split; [step (drop_temps_ok temps w); exact E|]. exact (upd_trans _ _ _ _ _ _ _ _ _ U1 U).
Qed.

Lemma hs_in_iwt fs is_ cs pos : wf_flds fs -> pos <= sp_end fs (ishapes fs is_ cs) pos.
Proof. intros; now apply sp_end_ge. Qed.

Lemma initialize_all :
  (forall t, wf_ty t -> forall w i dst bl' D n, ready w bl' D n t i ->
     place_ok bl' t dst (isize t i) -> D <= dst -> dst + isize t i <= D + n -> ilens t i = true ->
     build_res t w i dst (initialize t i dst (sp_lay t (ishape t i)) w)) /\
  (forall fs, wf_flds fs -> forall w kd is_ dst bl' D n cs pos A temps, readys w bl' D n fs is_ ->
     flds_place bl' fs A dst (sp_end fs (ishapes fs is_ cs) pos) -> D <= dst ->
     dst + sp_end fs (ishapes fs is_ cs) pos <= D + n -> ilens_flds fs is_ cs = true ->
     match snd (fruns kd fs is_ cs (temps_events temps)) with
     | Some vs => exists w', init_fields kd fs is_ (sp_tail fs (ishapes fs is_ cs) pos) dst temps w = Ok (hvals fs is_) w' /\
         upd w w' (dst + pos) (sp_end fs (ishapes fs is_ cs) pos - pos) (ibases_flds fs is_) (fst (fruns kd fs is_ cs (temps_events temps))) /\
         repr_tail (w_mem w') fs dst vs pos
     | None => exists w', init_fields kd fs is_ (sp_tail fs (ishapes fs is_ cs) pos) dst temps w = Panic w' /\
         upd w w' (dst + pos) (sp_end fs (ishapes fs is_ cs) pos - pos) (ibases_flds fs is_) (fst (fruns kd fs is_ cs (temps_events temps)))
     end).
Proof.
  apply vty_flds_ind.
  - intros f Hwf w i dst bl' D n H Hp HD1 HD2 Hz.
    destruct i; try (eapply build_src; eauto; fail); pose proof (proj1 H) as Hi; cbn [iwt] in Hi; try contradiction;
    (assert (Hb' : incl bl' (w_blocks w)) by (destruct H as (_ & _ & _ & H); eapply incl_tran; [exact H|apply without_incl]));
    destruct Hp as (P0 & Pm & PW & Pl); unfold isize in *; cbn [ishape sp_size sp_align] in *.
    + exists (set_mem w (wr (w_mem w) dst v)). split; [|split].
      * cbn [initialize sp_lay]. apply store_ok; auto. rewrite Hi. eapply live_incl; eauto.
      * unfold isize; cbn [ishape sp_size]. rewrite <- Hi. apply upd_store.
      * cbn [repr]. rewrite <- Hi. apply rd_wr_same.
    + unfold build_res. cbn [irun snd fst initialize ishape sp_lay]. destruct (f_clone f v) as [v'|] eqn:Ec; cbn [option_map].
      * assert (Hl' : len v' = f_size f) by (destruct Hwf as (_ & _ & _ & Hc); eapply Hc; eauto).
        set (w1 := add_log w [EClone v]). exists (set_mem w1 (wr (w_mem w1) dst v')). split; [|split].
        -- step (eq_refl : emit (EClone v) w = Ok tt w1). apply store_ok; auto. rewrite Hl'. eapply live_incl; eauto.
        -- unfold isize; cbn [ishape sp_size]. rewrite <- Hl'.
           exact (upd_trans _ _ _ _ _ _ _ _ _ (upd_log w [EClone v] dst (len v')) (upd_store w1 dst v')).
        -- cbn [repr]. rewrite <- Hl'. apply rd_wr_same.
      * eexists. split; [step (eq_refl : emit (EClone v) w = Ok tt (add_log w [EClone v])); reflexivity|apply upd_log].
    + destruct H as (_ & Hs & _). cbn [isrc] in Hs. destruct Hs as [(Sp & Sr) _]. cbn [repr] in Sr.
      assert (Hld : load a (f_size f) (f_align f) w = Ok ghost w).
      { rewrite load_ok; [now rewrite Sr|apply Sp|apply Sp|]. eapply live_incl; [apply Sp|exact Hb']. }
      set (v := ghost) in *.
      unfold build_res. cbn [irun snd fst initialize ishape sp_lay]. destruct (f_clone f v) as [v'|] eqn:Ec; cbn [option_map].
      * assert (Hl' : len v' = f_size f) by (destruct Hwf as (_ & _ & _ & Hc); eapply Hc; eauto).
        set (w1 := add_log w [EClone v]). exists (set_mem w1 (wr (w_mem w1) dst v')). split; [|split].
        -- step Hld. step (eq_refl : emit (EClone v) w = Ok tt w1). rewrite Ec. apply store_ok; auto. rewrite Hl'. eapply live_incl; eauto.
        -- unfold isize; cbn [ishape sp_size]. rewrite <- Hl'.
           exact (upd_trans _ _ _ _ _ _ _ _ _ (upd_log w [EClone v] dst (len v')) (upd_store w1 dst v')).
        -- cbn [repr]. rewrite <- Hl'. apply rd_wr_same.
      * eexists. split; [step Hld; step (eq_refl : emit (EClone v) w = Ok tt (add_log w [EClone v])); rewrite Ec; reflexivity|apply upd_log].
  - intros f k Hwf w i dst bl' D n H Hp HD1 HD2 Hz.
    destruct i as [| | |n0 ai| | | | | |]; try (eapply build_src; eauto; fail); pose proof (proj1 H) as Hi; cbn [iwt] in Hi; try contradiction.
    assert (Hb' : incl bl' (w_blocks w)) by (destruct H as (_ & _ & _ & H); eapply incl_tran; [exact H|apply without_incl]).
    destruct Hp as (P0 & Pm & PW & Pl); unfold isize in *; cbn [ishape sp_size sp_align] in *.
    set (off := up (len_size k) (f_align f)) in *. destruct Hi as [Ha Hn].
    assert (Hpos : 0 < f_align f) by (apply pow2_pos, Hwf).
    assert (Hoff : len_size k <= off) by (apply up_ge; auto).
    assert (B3 : (dst + off) mod f_align f = 0).
    { apply add_mod_0; [lia| |apply up_mod; auto].
      eapply pow2_mod; [apply Hwf| |apply N.le_max_r|exact Pm]. apply pow2_max; [apply len_size_pow2|apply Hwf]. }
    assert (B4 : live (w_blocks w) (dst + off) (n0 * f_size f)).
    { eapply live_incl; [|exact Hb']. eapply live_sub; [exact Pl|lia]. }
    assert (B5 : asrc bl' (w_mem w) (dst + off) (n0 * f_size f) f ai).
    { eapply asrc_narrow; [exact (proj1 (proj2 H))|lia|lia]. }
    pose proof (init_array_ok f ai dst off n0 w bl' Hwf Ha ltac:(lia) ltac:(lia) B3 B4 B5 Hb') as R. unfold arr_res in R.
    unfold build_res. cbn [irun snd fst initialize ishape sp_lay]. fold off.
    destruct (snd (arun f n0 ai)) as [xs|] eqn:Ea; cbn [option_map].
    + destruct R as (w1 & E1 & U1 & R1 & L1 & F1).
      assert (Hll : len (enc_le (N.to_nat (len_size k)) n0) = len_size k).
      { unfold len. rewrite len_enc_le. lia. }
      set (hb := enc_le (N.to_nat (len_size k)) n0) in *.
      exists (set_mem w1 (wr (w_mem w1) dst hb)). split; [|split].
      * step E1. apply store_ok; auto.
        -- eapply pow2_mod; [apply len_size_pow2| |apply N.le_max_l|exact Pm]. apply pow2_max; [apply len_size_pow2|apply Hwf].
        -- rewrite (upd_blocks _ _ _ _ _ _ U1), without_nil, Hll. eapply live_incl; [|exact Hb'].
           eapply live_pre; [exact Pl|lia].
      * unfold isize; cbn [ishape sp_size]. fold off. change (ibases (TArray f k) (ISized n0 ai)) with (@nil N ++ []).
        rewrite <- (app_nil_r (fst (arun f n0 ai))). eapply upd_trans.
        -- eapply upd_widen; [exact U1|lia|lia].
        -- eapply upd_widen; [apply upd_store|lia|]. rewrite Hll. lia.
      * cbn [repr set_mem w_mem]. fold off. rewrite L1. split.
        -- rewrite <- Hll at 1. apply rd_wr_same.
        -- rewrite rd_wr_out; [exact R1|]. unfold apart. rewrite Hll. lia.
    + destruct R as (w1 & E1 & U1). exists w1. split; [now apply bind_panic|].
      unfold isize; cbn [ishape sp_size]. fold off. eapply upd_widen; [exact U1|lia|lia].
  - intros t IH Hwf w i dst bl' D n H Hp HD1 HD2 Hz.
    destruct i; try (eapply build_src; eauto; fail); pose proof (proj1 H) as Hi; cbn [iwt] in Hi; try contradiction.
    specialize (IH Hwf w i dst bl' D n H Hp HD1 HD2 Hz).
    unfold build_res in *. cbn [irun fst snd]. destruct (snd (irun t i)); cbn [option_map]; exact IH.
  - intros kd hs ha fs IH Hwf w i dst bl' D n H Hp HD1 HD2 Hz.
    destruct i; try (eapply build_src; eauto; fail); pose proof (proj1 H) as Hi; cbn [iwt] in Hi; try contradiction.
    assert (Hb' : incl bl' (w_blocks w)) by (destruct H as (_ & _ & _ & H); eapply incl_tran; [exact H|apply without_incl]).
    set (cs := ictrls fs is_). set (ss := ishapes fs is_ cs). set (en := sp_end fs ss hs).
    assert (Esz : isize (TRec kd hs ha fs) (IRec is_) = en) by reflexivity. rewrite Esz in *.
    assert (Hwfs : wf_flds fs) by apply Hwf.
    assert (Hge : hs <= en) by (apply sp_end_ge; auto).
    destruct (rec_place kd hs ha fs bl' dst en Hwf Hp Hge) as [Hfp Hh].
    specialize (IH Hwfs w kd is_ dst bl' D n cs hs _ [] H Hfp HD1 HD2 Hz).
    unfold build_res. cbn [irun fst snd]. cbv zeta. cbn [fst snd]. fold cs.
    change (temps_events []) with (@nil event) in IH.
    pose proof (proj2 irun_ival fs kd is_ cs []) as Eiv.
    destruct (snd (fruns kd fs is_ cs [])) as [vs|] eqn:Er; cbn [option_map].
    + destruct IH as (w1 & E1 & U1 & R1). set (hb := header_bytes hs (hvals fs is_)).
      assert (Hhb : len hb = hs) by apply header_len.
      assert (Hdm : dst mod ha = 0).
      { destruct Hp as (_ & Pm & _). destruct Hwf as ((Ha & _) & _).
        eapply pow2_mod; [exact Ha| |apply N.le_max_l|exact Pm]. apply pow2_max; [exact Ha|]. apply (proj2 align_ok fs Hwfs). }
      exists (set_mem w1 (wr (w_mem w1) dst hb)). split; [|split].
      * cbn [initialize ishape sp_lay]. fold cs ss. step E1. fold hb. apply store_ok; auto.
        -- apply Hp.
        -- rewrite (upd_blocks _ _ _ _ _ _ U1), Hhb. destruct H as (_ & _ & _ & H).
           eapply live_incl; [|exact H]. eapply live_pre; [apply Hp|exact Hge].
      * rewrite Esz. change (ibases (TRec kd hs ha fs) (IRec is_)) with (ibases_flds fs is_).
        rewrite <- (app_nil_r (ibases_flds fs is_)), <- (app_nil_r (fst (fruns kd fs is_ cs []))).
        eapply upd_trans; [eapply upd_widen; [exact U1|lia|fold ss en; lia]|].
        eapply upd_widen; [apply upd_store|lia|lia].
      * cbn [repr set_mem w_mem]. symmetry in Eiv.
        destruct (proj2 ival_ok_all fs Hwfs is_ cs vs Hi Eiv) as (V1 & V2 & V3). specialize (V2 Hz).
        destruct Hwf as ((Hpa & _ & _ & Hhd & Hdis) & _).
        eapply (repr_flds_join fs _ dst hs is_ vs cs Hi Eiv).
        -- intros p Hpin. destruct (hvals_head fs is_ Hi p Hpin) as (g & G1 & G2).
           destruct (Hhd _ _ G1) as (_ & G3 & _).
           apply rd_eq; [reflexivity|]. intros j Hj. unfold wr. rewrite Hhb.
           destruct (N.leb_spec dst (dst + fst p + j)); [|lia].
           destruct (N.ltb_spec (dst + fst p + j) (dst + hs)); [|lia]. cbn [andb].
           replace (dst + fst p + j - dst) with (fst p + j) by lia.
           unfold hb. rewrite header_bytes_fold. apply hfold_in; auto; [|lia]. now apply hvals_apart.
        -- eapply repr_tail_frame; [exact Hwfs|exact V2| |exact R1]. intros x Hx. apply wr_out. lia.
    + destruct IH as (w1 & E1 & U1). exists w1. split.
      * cbn [initialize ishape sp_lay]. fold cs ss. now apply bind_panic.
      * rewrite Esz. eapply upd_widen; [exact U1|lia|fold ss en; lia].
  - intros _ w kd is_ dst bl' D n cs pos A temps H Hp HD1 HD2 Hz. pose proof (proj1 H) as Hi. destruct is_; try contradiction.
    cbn. exists w. split; [reflexivity|split; [apply upd_refl|exact I]].
  - intros off f r IH [Hf Hwr] w kd is_ dst bl' D n cs pos A temps H Hp HD1 HD2 Hz. pose proof (proj1 H) as Hi. destruct is_ as [|[] is_]; try contradiction.
    cbn [ishapes sp_end sp_tail init_fields fruns hvals ilens_flds] in *. cbv zeta. cbn [fst snd].
    assert (H1 : readys w bl' D n r is_) by (eapply (readys_rest0 w w); [exact Hwr|exact H|apply (upd_refl w 0 0)|auto|reflexivity]).
    specialize (IH Hwr w kd is_ dst bl' D n cs pos A ((f, v) :: temps) H1 Hp HD1 HD2 Hz).
    change (temps_events ((f, v) :: temps)) with (drop_events f [v] ++ temps_events temps) in IH.
    destruct (snd (fruns kd r is_ cs (drop_events f [v] ++ temps_events temps))) as [vs|]; cbn [option_map].
    + destruct IH as (w1 & E1 & U1 & R1). exists w1. split; [now step E1|]. split; [exact U1|exact R1].
    + destruct IH as (w1 & E1 & U1). exists w1. split; [now apply bind_panic|exact U1].
  - intros off f r IH [Hf Hwr] w kd is_ dst bl' D n cs pos A temps H Hp HD1 HD2 Hz. pose proof (proj1 H) as Hi. destruct is_ as [|[] is_]; try contradiction.
    cbn [ishapes sp_end sp_tail init_fields fruns hvals ilens_flds] in *. cbv zeta. cbn [fst snd].
    assert (H1 : readys w bl' D n r is_) by (eapply (readys_rest0 w w); [exact Hwr|exact H|apply (upd_refl w 0 0)|auto|reflexivity]).
    specialize (IH Hwr w kd is_ dst bl' D n cs pos A ((f, v) :: temps) H1 Hp HD1 HD2 Hz).
    change (temps_events ((f, v) :: temps)) with (drop_events f [v] ++ temps_events temps) in IH.
    destruct (snd (fruns kd r is_ cs (drop_events f [v] ++ temps_events temps))) as [vs|]; cbn [option_map].
    + destruct IH as (w1 & E1 & U1 & R1). exists w1. split; [now step E1|]. split; [exact U1|exact R1].
    + destruct IH as (w1 & E1 & U1). exists w1. split; [now apply bind_panic|exact U1].
  - intros t IHt r IH [Hwt Hwr] w kd is_ dst bl' D n cs pos A temps H Hp HD1 HD2 Hz. pose proof (proj1 H) as Hi. destruct is_ as [|i is_]; try contradiction.
    cbn [ishapes sp_tail init_fields fruns hvals ilens_flds] in *. apply andb_prop in Hz. destruct Hz as [Hz1 Hz2].
    destruct (fvar_place _ _ _ _ _ _ _ _ Hwt Hwr Hp) as (B1 & B2 & B3).
    cbn [sp_end] in *. fold (isize t i) in *.
    set (o := up pos (sp_align t)) in *. set (ss := ishapes r is_ cs) in *. set (en := sp_end r ss (o + isize t i)) in *.
    assert (Hge : o + isize t i <= en) by (apply sp_end_ge; auto).
    assert (Ho : pos <= o) by (apply up_ge, sp_align_pos; auto).
    destruct (readys_var _ _ _ _ _ _ _ _ H) as [Ht Hnd].
    assert (Eb : ibases_flds (FVar t r) (i :: is_) = ibases t i ++ ibases_flds r is_).
    { unfold ibases_flds. cbn [iboxes_flds]. apply map_app. }
    rewrite Eb. rewrite wadd_small by auto.
    specialize (IHt Hwt w i (dst + o) bl' D n Ht B2 ltac:(lia) ltac:(lia) Hz1).
    unfold build_res in IHt. destruct (irun t i) as [e [v|]] eqn:Ei; cbn [fst snd] in *.
    + destruct IHt as (w1 & E1 & U1 & R1).
      pose proof (proj1 irun_ival t i) as Eiv. rewrite Ei in Eiv. cbn [snd] in Eiv. symmetry in Eiv.
      destruct (proj1 ival_ok_all t Hwt i v (proj1 Hi) Eiv) as (V1 & V2). specialize (V1 Hz1).
      pose proof (readys_rest w w1 bl' D n t r i is_ _ _ _ Hwr H U1 ltac:(right; lia)) as H1.
      specialize (IH Hwr w1 kd is_ dst bl' D n cs (o + isize t i) A temps H1 B3 HD1 HD2 Hz2).
      fold ss en in IH. set (q := fruns kd r is_ cs (temps_events temps)) in *.
      destruct (snd q) as [vs|] eqn:Eq; cbn [option_map].
      * destruct IH as (w2 & E2 & U2 & R2). exists w2. split; [|split].
        -- step (on_unwind_ok _ (unwind_rec kd temps r is_) _ _ _ E1). exact E2.
        -- eapply upd_trans; (eapply upd_widen; [eassumption|lia|lia]).
        -- cbn [repr_tail]. split.
           ++ fold o. apply (repr_shift t (w_mem w1) (w_mem w2) (dst + o) (dst + o) v); auto.
              intros j Hj. apply (upd_mem _ _ _ _ _ _ U2). unfold vsize in Hj. rewrite V2 in Hj. fold (isize t i) in Hj. lia.
           ++ fold o. rewrite V2. fold (isize t i). exact R2.
      * destruct IH as (w2 & E2 & U2). exists w2. split.
        -- step (on_unwind_ok _ (unwind_rec kd temps r is_) _ _ _ E1). exact E2.
        -- eapply upd_trans; (eapply upd_widen; [eassumption|lia|lia]).
    + destruct IHt as (w1 & E1 & U1).
      pose proof (readys_rest w w1 bl' D n t r i is_ _ _ _ Hwr H U1 ltac:(right; lia)) as H1.
      destruct (unwind_ok kd temps r is_ w1 bl' D n Hwr H1) as (w2 & E2 & U2).
      exists w2. split; [apply bind_panic; eapply on_unwind_panic; eauto|].
      eapply upd_trans; [eapply upd_widen; [exact U1|lia|lia]|apply upd_0, U2].
  - intros f lf r IH (Hf & Hwr) w kd is_ dst bl' D n cs pos A temps H Hp HD1 HD2 Hz. pose proof (proj1 H) as Hi. destruct is_ as [|[] is_]; try contradiction.
    cbn [ishapes sp_tail init_fields fruns hvals ilens_flds] in *. apply andb_prop in Hz. destruct Hz as [Hz1 Hz2].
    destruct (farr_place _ _ _ _ _ _ _ _ _ Hf Hwr Hp) as ((B1 & B2 & B3 & B4) & B5).
    cbn [sp_end] in *.
    set (o := up pos (f_align f)) in *. set (ss := ishapes r is_ cs) in *. set (nb := lf cs * f_size f) in *.
    set (en := sp_end r ss (o + nb)) in *.
    assert (Hge : o + nb <= en) by (apply sp_end_ge; auto).
    assert (Ho : pos <= o) by (apply up_ge, pow2_pos, Hf).
    assert (Hb' : incl bl' (w_blocks w)) by (destruct H as (_ & _ & _ & H); eapply incl_tran; [exact H|apply without_incl]).
    assert (B6 : asrc bl' (w_mem w) (dst + o) (lf cs * f_size f) f ai).
    { eapply asrc_narrow; [exact (proj1 (proj1 (proj2 H)))|lia|fold nb; lia]. }
    pose proof (init_array_ok f ai dst o (lf cs) w bl' Hf (proj1 Hi) B1 B2 B3 (live_incl _ _ _ _ B4 Hb') B6 Hb') as R.
    unfold arr_res in R. fold nb in R.
    change (ibases_flds (FArr f lf r) (IArrF ai :: is_)) with ([] ++ ibases_flds r is_).
    destruct (arun f (lf cs) ai) as [e [xs|]] eqn:Ea; cbn [fst snd] in *.
    + destruct R as (w1 & E1 & U1 & R1 & L1 & F1).
      pose proof (readys_rest0 w w1 bl' D n _ r _ is_ _ _ _ Hwr H U1 ltac:(right; lia) eq_refl) as H1.
      specialize (IH Hwr w1 kd is_ dst bl' D n cs (o + nb) A temps H1 B5 HD1 HD2 Hz2).
      fold ss en in IH. set (q := fruns kd r is_ cs (temps_events temps)) in *.
      destruct (snd q) as [vs|] eqn:Eq; cbn [option_map].
      * destruct IH as (w2 & E2 & U2 & R2). exists w2. split; [|split].
        -- step (on_unwind_ok _ (unwind_rec kd temps r is_) _ _ _ E1). exact E2.
        -- eapply upd_trans; (eapply upd_widen; [eassumption|lia|lia]).
        -- cbn [repr_tail]. rewrite L1. fold o nb. split; [|exact R2].
           rewrite <- R1. apply rd_ext. intros x Hx. apply (upd_mem _ _ _ _ _ _ U2). lia.
      * destruct IH as (w2 & E2 & U2). exists w2. split.
        -- step (on_unwind_ok _ (unwind_rec kd temps r is_) _ _ _ E1). exact E2.
        -- eapply upd_trans; (eapply upd_widen; [eassumption|lia|lia]).
    + destruct R as (w1 & E1 & U1).
      pose proof (readys_rest0 w w1 bl' D n _ r _ is_ _ _ _ Hwr H U1 ltac:(right; lia) eq_refl) as H1.
      destruct (unwind_ok kd temps r is_ w1 bl' D n Hwr H1) as (w2 & E2 & U2).
      exists w2. split; [apply bind_panic; eapply on_unwind_panic; eauto|].
      eapply upd_trans; [eapply upd_widen; [exact U1|lia|lia]|apply upd_0, U2].
Qed.

Lemma initialize_ok t w i dst :
  wf_ty t -> init_ready w t i dst (isize t i) ->
  place_ok (without (w_blocks w) (ibases t i)) t dst (isize t i) -> ilens t i = true ->
  build_res t w i dst (initialize t i dst (sp_lay t (ishape t i)) w).
Proof.
  intros Hwf (A1 & A2 & A3) Hp Hz.
  eapply (proj1 initialize_all t Hwf w i dst (without (w_blocks w) (ibases t i)) dst (isize t i)); auto; try lia.
  repeat split; auto. apply incl_refl.
Qed.
