(** Setters.v - try_set_layout_controllers. *)
From Verif Require Export DropPanic Locate.

Lemma ctrl_types_eq fs : ctrl_types fs = map snd (ctrl_fields fs).
Proof. induction fs; cbn [ctrl_types ctrl_fields map snd]; auto. now rewrite IHfs. Qed.

Lemma same_lengths_test fs c c' :
  forallb (fun lf => lf c =? lf c') (len_fns fs) = true <-> same_lengths fs c c'.
Proof.
  induction fs as [|off f r IH|off f r IH|t r IH|f lf r IH]; cbn [len_fns same_lengths forallb]; try tauto.
  rewrite andb_true_iff, N.eqb_eq. tauto.
Qed.
Lemma vctrls_ok fs : forall vs cs, vok_flds fs vs cs -> ctrls_ok fs (vctrls fs vs).
Proof.
  unfold ctrls_ok. induction fs as [|off f r IH|off f r IH|t r IH|f lf r IH]; intros vs cs Hv; cbn [vok_flds ctrl_types vctrls] in *.
  - destruct vs; [constructor|contradiction].
  - destruct vs as [|[] vs]; try contradiction. eapply IH; apply Hv.
  - destruct vs as [|[] vs]; try contradiction. constructor; [tauto|]. eapply IH; apply Hv.
  - destruct vs as [|v vs]; try contradiction. eapply IH; apply Hv.
  - destruct vs as [|[] vs]; try contradiction. eapply IH; apply Hv.
Qed.
Lemma with_ctrls_ok fs : forall vs cs cs' news,
  vok_flds fs vs cs -> ctrls_ok fs news -> same_lengths fs cs cs' ->
  vok_flds fs (with_ctrls fs vs news) cs' /\ map vshape (with_ctrls fs vs news) = map vshape vs /\
  vctrls fs (with_ctrls fs vs news) = news.
Proof.
  unfold ctrls_ok. induction fs as [|off f r IH|off f r IH|t r IH|f lf r IH]; intros vs cs cs' news Hv Hn Hs;
    cbn [vok_flds ctrl_types vctrls same_lengths with_ctrls] in *.
  - destruct vs; [|contradiction]. inversion Hn; subst. auto.
  - destruct vs as [|[] vs]; try contradiction. destruct (IH vs cs cs' news (proj2 Hv) Hn Hs) as (A1 & A2 & A3).
    cbn [vok_flds map vctrls]. rewrite A2, A3. intuition.
  - destruct vs as [|[] vs]; try contradiction. inversion Hn as [|x y l l' H1 H2]; subst.
    destruct (IH vs cs cs' l' (proj2 Hv) H2 Hs) as (A1 & A2 & A3).
    cbn [vok_flds map vctrls vshape]. rewrite A2, A3. auto.
  - destruct vs as [|v vs]; try contradiction. destruct (IH vs cs cs' news (proj2 Hv) Hn Hs) as (A1 & A2 & A3).
    cbn [vok_flds map vctrls]. rewrite A2, A3. intuition.
  - destruct vs as [|[|xs| |] vs]; try contradiction. destruct Hv as (V1 & V2 & V3). destruct Hs as (S1 & S2).
    destruct (IH vs cs cs' news V3 Hn S2) as (A1 & A2 & A3).
    cbn [vok_flds map vctrls]. rewrite A2, A3. intuition. congruence.
Qed.
Lemma with_ctrls_same fs : forall vs cs, vok_flds fs vs cs -> with_ctrls fs vs (vctrls fs vs) = vs.
Proof.
  induction fs as [|off f r IH|off f r IH|t r IH|f lf r IH]; intros vs cs Hv; cbn [vok_flds vctrls with_ctrls] in *.
  - destruct vs; [reflexivity|contradiction].
  - destruct vs as [|[] vs]; try contradiction. f_equal. eapply IH; apply Hv.
  - destruct vs as [|[] vs]; try contradiction. f_equal. eapply IH; apply Hv.
  - destruct vs as [|v vs]; try contradiction. f_equal. eapply IH; apply Hv.
  - destruct vs as [|[] vs]; try contradiction. f_equal. eapply IH; apply Hv.
Qed.

Lemma drop_pairs_ok l : forall vs w,
  for_each (fun '(f, v) => drop_value f v) (combine l vs) w = Ok tt (add_log w (ctrl_drops l vs)).
Proof.
  induction l as [|f l IH]; intros [|v vs] w; cbn [combine for_each ctrl_drops]; try (unfold ret; now rewrite add_log_nil).
  step (drop_value_ok f v w). now rewrite IH, add_log_app.
Qed.

Definition outside_ctrls (fs : flds) (a : N) (m m' : N -> cell) : Prop :=
  forall x, (forall off f, In (off, f) (ctrl_fields fs) -> x < a + off \/ a + off + f_size f <= x) -> m' x = m x.

(** The loop that assigns the controllers: the first [k] are assigned, the [k]-th destructor panics
    or all are assigned. *)
(** The same with destructors that may panic. *)
Lemma drop_values_p_ok dp fl : forall cs w, drop_values_p dp (combine fl cs) w =
  let d := drops_of (ctrl_drops fl cs) in
  match length (filter dp d) with
  | O => DOk tt (add_log w (ctrl_drops fl cs))
  | S O => DPanic (add_log w (ctrl_drops fl cs))
  | _ => DAbort
  end.
Proof.
  induction fl as [|f fl IH]; intros [|c cs] w; cbn [combine drop_values_p ctrl_drops drops_of filter length]; try (unfold dret; now rewrite add_log_nil).
  unfold drop_value_p, drop_events. destruct (f_drop f); cbn [map app drops_of filter].
  - unfold dbind, dunwind, run_destructor, dbind, dlift, emit, dret.
    destruct (dp c); rewrite IH; cbv zeta; cbn [length]; destruct (length (filter dp (drops_of (ctrl_drops fl cs)))) as [|[|k]]; rewrite ?add_log_app; reflexivity.
  - unfold dbind, dunwind, dret. apply IH.
Qed.
Lemma no_panics_all (dp : list cell -> bool) (d : list (list cell)) : existsb dp d = false <-> length (filter dp d) = 0%nat.
Proof. induction d as [|x d IH]; cbn; [tauto|]. destruct (dp x); cbn; [split; discriminate|exact IH]. Qed.
(** The first [k] controllers include exactly one whose destructor panics, the last. *)
Definition first_panic (dp : list cell -> bool) (fl : list fty) (cs : list (list cell)) (k : nat) : Prop :=
  exists j, k = S j /\ ctrl_panics dp fl cs j = true /\ forall i, (i < j)%nat -> ctrl_panics dp fl cs i = false.
Lemma set_ctrls_ok dp fs : wf_flds fs -> ForallOrdPairs hf_disjoint (head_fields fs) -> forall w a vs cs pos A hs news,
  hs <= pos -> hdr_in fs A hs -> vok_flds fs vs cs -> ctrls_ok fs news ->
  flds_place (w_blocks w) fs A a (sp_end fs (map vshape vs) pos) -> repr_flds (w_mem w) fs a vs pos ->
  exists w' (k : nat), (k <= length news)%nat /\
    repr_flds (w_mem w') fs a (with_ctrls fs vs (mixed k news (vctrls fs vs))) pos /\
    outside_ctrls fs a (w_mem w) (w_mem w') /\
    w_blocks w' = w_blocks w /\ w_alloc w' = w_alloc w /\ w_tick w' = w_tick w /\
    ((k = length news /\ set_ctrls a dp (ctrl_fields fs) news w = Ok tt w' /\
      w_log w' = w_log w ++ ctrl_drops (ctrl_types fs) (vctrls fs vs) /\
      (forall j, ctrl_panics dp (ctrl_types fs) (vctrls fs vs) j = false) /\
      set_ctrls_p dp a (ctrl_fields fs) news w = DOk tt w') \/
     ((exists old, In old (vctrls fs vs) /\ dp old = true) /\
      set_ctrls a dp (ctrl_fields fs) news w = Panic w' /\
      w_log w' = w_log w ++ ctrl_drops (firstn k (ctrl_types fs)) (vctrls fs vs) ++
                            ctrl_drops (skipn k (ctrl_types fs)) (skipn k news) /\
      first_panic dp (ctrl_types fs) (vctrls fs vs) k /\
      set_ctrls_p dp a (ctrl_fields fs) news w =
        if existsb dp (drops_of (ctrl_drops (skipn k (ctrl_types fs)) (skipn k news))) then DAbort else DPanic w')).
Proof.
  unfold ctrls_ok.
  induction fs as [|off f r IH|off f r IH|t r IH|f lf r IH]; intros Hwf Hdj w a vs cs pos A hs news Hpos Hh Hv Hn Hp Hr.
  - destruct vs; [|contradiction]. inversion Hn; subst. exists w, O. cbn. repeat split; auto.
    left. rewrite app_nil_r. repeat split; auto. intros [|j]; reflexivity.
  - destruct Hwf as [Hf Hwr]. destruct vs as [|[bs| | |] vs]; try contradiction.
    cbn [vok_flds repr_flds map vshape sp_end head_fields ctrl_fields ctrl_types vctrls with_ctrls] in *.
    inversion Hdj as [|x l Hd Hdr]; subst x l. rewrite Forall_forall in Hd.
    assert (Hh' : hdr_in r A hs) by (eapply hdr_in_cons; [|exact Hh]; reflexivity).
    destruct (IH Hwr Hdr w a vs cs pos A hs news Hpos Hh' (proj2 Hv) Hn Hp (proj2 Hr))
      as (w' & k & Hk & R' & O' & B' & A' & T' & H).
    exists w', k. split; [exact Hk|]. split; [|split; [exact O'|auto]]. split; [|exact R'].
    rewrite <- (proj1 Hr). apply rd_ext. intros x Hx. apply O'. intros o' f' Hin.
    specialize (Hd _ (ctrl_in_head _ _ _ Hin)). unfold hf_disjoint in Hd. cbn [fst snd] in Hd. lia.
  - destruct Hwf as [Hf Hwr]. destruct vs as [|[bs| | |] vs]; try contradiction.
    cbn [vok_flds repr_flds map vshape sp_end head_fields ctrl_fields ctrl_types vctrls with_ctrls] in *.
    inversion Hdj as [|x l Hd Hdr]; subst x l. rewrite Forall_forall in Hd.
    inversion Hn as [|x y l l' Hn1 Hn2]; subst x l news. rename y into new, l' into news.
    assert (Hh' : hdr_in r A hs) by (eapply hdr_in_cons; [|exact Hh]; reflexivity).
    destruct (Hh off f (or_introl eq_refl)) as (_ & Hoff & _).
    destruct (fhdr_place _ (FLength off f r) off f r A a _ eq_refl Hf ltac:(cbn [sp_falign]; lia) Hp
       (hdr_in_le _ _ _ (sp_end r (map vshape vs) pos) Hh ltac:(pose proof (sp_end_ge r Hwr (map vshape vs) pos); lia))) as (B1 & B2 & B3 & B4 & B5 & B6).
    destruct Hr as [R1 R2]. destruct Hv as [V1 V2].
    cbn [set_ctrls]. rewrite wadd_small by auto.
    set (w1 := add_log w (drop_events f [bs])).
    set (w2 := set_mem w1 (wr (w_mem w1) (a + off) new)).
    assert (E1 : load (a + off) (f_size f) (f_align f) w = Ok bs w) by (rewrite load_ok by auto; now rewrite R1).
    assert (E2 : store (a + off) (f_align f) new w1 = Ok tt w2).
    { apply store_ok; auto. rewrite Hn1. exact B4. }
    assert (R2' : repr_flds (w_mem w2) r a vs pos).
    { eapply (repr_flds_ext r Hwr (w_mem w)); eauto.
      - intros o' f' Hin. apply rd_wr_out. specialize (Hd _ Hin). unfold hf_disjoint in Hd. cbn [fst snd] in Hd. unfold apart. lia.
      - intros i Hi _. apply wr_out. lia. }
    assert (Hnew : rd (w_mem w2) (a + off) (f_size f) = new) by (rewrite <- Hn1; apply rd_wr_same).
    destruct (f_drop f && dp bs) eqn:Edp.
    + exists (add_log w2 (ctrl_drops (ctrl_types r) news)), 1%nat. cbn [length]. split; [lia|].
      unfold mixed. cbn [firstn skipn app with_ctrls]. rewrite (with_ctrls_same r vs cs) by auto.
      split; [split; [exact Hnew|exact R2']|]. split.
      { intros x Hx. apply wr_out. rewrite Hn1. apply (Hx off f). left; reflexivity. }
      split; [reflexivity|]. split; [reflexivity|]. split; [reflexivity|]. right. split.
      { exists bs. split; [left; reflexivity|]. apply andb_true_iff in Edp. tauto. }
      split.
      * step E1. step (drop_value_ok f bs w). fold w1. step E2. rewrite Edp,  <- ctrl_types_eq.
        now step (drop_pairs_ok (ctrl_types r) news w2).
      * split; [cbn; rewrite app_nil_r, <- app_assoc; reflexivity|]. split; [exists 0%nat; split; [reflexivity|]; split; [exact Edp|]; intros i Hi; lia|].
        cbn [set_ctrls_p]. rewrite wadd_small by auto. unfold dbind at 1, dlift at 1. rewrite E1. unfold dbind, dunwind, drop_value_p, run_destructor, dbind, dlift.
        apply andb_true_iff in Edp. destruct Edp as [Ef Ed]. assert (Ew : add_log w [EDrop bs] = w1) by (unfold w1, drop_events; now rewrite Ef). unfold emit. rewrite Ef, Ed.
        rewrite Ew, E2, <- ctrl_types_eq, drop_values_p_ok. cbv zeta.
        destruct (existsb dp (drops_of (ctrl_drops (ctrl_types r) news))) eqn:Ee.
        -- destruct (length (filter dp (drops_of (ctrl_drops (ctrl_types r) news)))) as [|[|k0]] eqn:El; try reflexivity. apply no_panics_all in El. congruence.
        -- apply no_panics_all in Ee. now rewrite Ee.
    + destruct (IH Hwr Hdr w2 a vs cs pos A hs news Hpos Hh' V2 Hn2 B5 R2')
        as (w' & k & Hk & R' & O' & B' & A' & T' & H).
      exists w', (S k). cbn [length]. split; [lia|]. unfold mixed. cbn [firstn skipn app with_ctrls].
      assert (Hsame : rd (w_mem w') (a + off) (f_size f) = new).
      { rewrite <- Hnew. apply rd_ext. intros x Hx. apply O'. intros o' f' Hin.
        specialize (Hd _ (ctrl_in_head _ _ _ Hin)). unfold hf_disjoint in Hd. cbn [fst snd] in Hd. lia. }
      split; [split; [exact Hsame|exact R']|]. split.
      { intros x Hx. rewrite O'; [|intros; apply Hx; right; auto]. apply wr_out. rewrite Hn1. apply (Hx off f). left; reflexivity. }
      split; [exact B'|]. split; [exact A'|]. split; [exact T'|].
      assert (Es : forall (Y : res world unit), set_ctrls a dp (ctrl_fields r) news w2 = Y ->
        (old <- load (a + off) (f_size f) (f_align f);; drop_value f old;;; store (a + off) (f_align f) new;;;
          (if f_drop f && dp old then for_each (fun '(f0, v) => drop_value f0 v) (combine (map snd (ctrl_fields r)) news);;; panic
           else set_ctrls a dp (ctrl_fields r) news)) w = Y).
      { intros Y HY. step E1. step (drop_value_ok f bs w). fold w1. step E2. rewrite Edp. exact HY. }
      assert (Ep : forall (Y : dres world unit), set_ctrls_p dp a (ctrl_fields r) news w2 = Y -> set_ctrls_p dp a ((off, f) :: ctrl_fields r) (new :: news) w = Y).
      { intros Y HY. cbn [set_ctrls_p]. rewrite wadd_small by auto. unfold dbind at 1, dlift at 1. rewrite E1. unfold dbind, dunwind, drop_value_p, run_destructor, dbind, dlift.
        assert (Ew : (if f_drop f then add_log w [EDrop bs] else w) = w1) by (unfold w1, drop_events; destruct (f_drop f); [reflexivity|symmetry; apply add_log_nil]).
        destruct (f_drop f).
        - cbn in Edp. unfold emit. rewrite Edp. unfold dret. now rewrite Ew, E2.
        - unfold dret. now rewrite Ew, E2. }
      destruct H as [(-> & E & L & F & Q)|((old & Ho & Hd') & E & L & (j & -> & F1 & F2) & Q)].
      * left. split; [reflexivity|]. split; [apply Es, E|]. split; [rewrite L; cbn [ctrl_drops]; cbn; now rewrite <- app_assoc|].
        split; [intros [|i]; [exact Edp|apply F]|apply Ep, Q].
      * right. split; [exists old; split; [right; exact Ho|exact Hd']|]. split; [apply Es, E|].
        split; [rewrite L; cbn [ctrl_drops]; cbn; now rewrite <- !app_assoc|].
        split; [exists (S j); split; [reflexivity|]; split; [exact F1|]; intros [|i] Hi; [exact Edp|apply F2; lia]|]. apply Ep, Q.
  - destruct Hwf as [Hwt Hwr]. destruct vs as [|v0 vs]; try contradiction.
    cbn [vok_flds repr_flds map head_fields ctrl_fields ctrl_types vctrls with_ctrls] in *.
    destruct (fvar_place _ _ _ _ _ _ _ _ Hwt Hwr Hp) as (B1 & B2 & B3).
    pose proof (up_ge pos (sp_align t) (sp_align_pos _ Hwt)) as Hup.
    destruct Hr as [R1 R2]. destruct Hv as [V1 V2].
    destruct (IH Hwr Hdj w a vs cs (up pos (sp_align t) + sp_size t (vshape v0)) A hs news ltac:(lia) Hh V2 Hn B3 R2)
      as (w' & k & Hk & R' & O' & B' & A' & T' & H).
    exists w', k. split; [exact Hk|]. split; [|split; [exact O'|auto]]. split; [|exact R'].
    eapply (repr_shift t (w_mem w)); [auto|auto| |exact R1]. intros i Hi. apply O'. intros o' f' Hin.
    destruct (Hh _ _ (ctrl_in_head _ _ _ Hin)) as (_ & Hx & _). lia.
  - destruct Hwf as (Hf & Hwr). destruct vs as [|[|xs| |] vs]; try contradiction.
    cbn [vok_flds repr_flds map vshape head_fields ctrl_fields ctrl_types vctrls with_ctrls] in *.
    destruct (farr_place _ _ _ _ _ _ _ _ _ Hf Hwr Hp) as ((B1 & B2 & B3 & B4) & B5).
    pose proof (up_ge pos (f_align f) (pow2_pos _ (proj1 Hf))) as Hup.
    destruct Hr as [R1 R2]. destruct Hv as (Vx & Vn & V2).
    destruct (IH Hwr Hdj w a vs cs (up pos (f_align f) + len xs * f_size f) A hs news ltac:(lia) Hh V2 Hn B5 R2)
      as (w' & k & Hk & R' & O' & B' & A' & T' & H).
    exists w', k. split; [exact Hk|]. split; [|split; [exact O'|auto]]. split; [|exact R'].
    rewrite <- R1. apply rd_ext. intros i Hi. apply O'. intros o' f' Hin.
    destruct (Hh _ _ (ctrl_in_head _ _ _ Hin)) as (_ & Hx & _). lia.
Qed.

Lemma ctrls_ok_mixed fs k news olds : ctrls_ok fs news -> ctrls_ok fs olds -> ctrls_ok fs (mixed k news olds).
Proof.
  unfold ctrls_ok, mixed. intros H. revert k olds. induction H as [|f c l l' Hc H IH]; intros k olds Ho; inversion Ho; subst.
  - now rewrite firstn_nil, skipn_nil.
  - destruct k; cbn [firstn skipn app]; [constructor; auto|]. constructor; [auto|]. now apply IH.
Qed.

(** Evaluating and comparing all the lengths, old controllers first. *)
Lemma lengths_eval_all fs c : lengths_eval fs c <-> Forall (fun lf => lf c < W) (len_fns fs).
Proof.
  induction fs; cbn [lengths_eval len_fns]; try assumption.
  - split; auto.
  - rewrite IHfs. split; [intros []; constructor; auto|inversion 1; auto].
Qed.
Lemma compare_ok fs c c' (w : world) :
  lengths_eval fs c -> lengths_eval fs c' ->
  mapM (fun lf : list (list cell) -> N => x <- len_call (lf c) ;; y <- len_call (lf c') ;; ret (x =? y)) (len_fns fs) w =
  Ok (map (fun lf => lf c =? lf c') (len_fns fs)) w.
Proof.
  rewrite !lengths_eval_all. induction (len_fns fs) as [|lf l IH]; intros H H'; [reflexivity|].
  inversion H; inversion H'; subst. cbn [mapM map]. unfold bind at 1. unfold bind at 1.
  rewrite (len_call_ok (lf c) w) by auto. unfold bind at 1. rewrite (len_call_ok (lf c') w) by auto. cbn [ret].
  now step (IH ltac:(assumption) ltac:(assumption)).
Qed.
Lemma compare_panic fs c c' (w : world) :
  lengths_eval fs c -> ~ lengths_eval fs c' ->
  mapM (fun lf : list (list cell) -> N => x <- len_call (lf c) ;; y <- len_call (lf c') ;; ret (x =? y)) (len_fns fs) w = Panic w.
Proof.
  rewrite !lengths_eval_all. induction (len_fns fs) as [|lf l IH]; intros H H'; [destruct H'; auto|].
  inversion H; subst. cbn [mapM map]. unfold bind at 1. unfold bind at 1.
  rewrite (len_call_ok (lf c) w) by auto. unfold bind at 1.
  destruct (N.lt_ge_cases (lf c') W) as [Hc|Hc].
  - rewrite (len_call_ok (lf c') w) by auto. cbn [ret]. apply bind_panic, IH; auto.
  - now rewrite (len_call_panic (lf c') w) by auto.
Qed.
Lemma lengths_eval_dec fs c : {lengths_eval fs c} + {~ lengths_eval fs c}.
Proof.
  induction fs as [| | | |f lf r IH]; cbn [lengths_eval]; auto.
  destruct (lf c <? W) eqn:E; [apply N.ltb_lt in E|apply N.ltb_ge in E; right; lia].
  destruct IH; [left|right]; tauto.
Qed.
Lemma same_lengths_eval fs c c' : lengths_eval fs c -> same_lengths fs c c' -> lengths_eval fs c'.
Proof. induction fs; cbn [lengths_eval same_lengths]; auto. intros [H1 H2] [H3 H4]. rewrite <- H3. auto. Qed.
Lemma vok_lengths fs : forall vs cs, vok_flds fs vs cs -> lengths_eval fs cs.
Proof.
  induction fs as [|o1 f1 r1 IHr|o1 f1 r1 IHr|t r IH|f lf r IH]; intros vs cs Hv.
  - exact I.
  - destruct vs as [|[] vs]; cbn [vok_flds lengths_eval] in *; try contradiction. eapply IHr, Hv.
  - destruct vs as [|[] vs]; cbn [vok_flds lengths_eval] in *; try contradiction. eapply IHr, Hv.
  - destruct vs as [|v vs]; cbn [vok_flds lengths_eval] in *; try contradiction. eapply IH, Hv.
  - destruct vs as [|[] vs]; cbn [vok_flds lengths_eval] in *; try contradiction. destruct Hv as (_ & [_ H] & Hv). split; [exact H|]. eapply IH, Hv.
Qed.

(** All outcomes of try_set_layout_controllers. *)
Lemma try_set_cases hs ha fs w a vs dp news :
  let t := TRec KStruct hs ha fs in
  wf_ty t -> obj_at w t a (VRec vs) -> ctrls_ok fs news ->
  (~ lengths_eval fs news /\
   try_set_layout_controllers fs a dp news w = Panic (add_log w (ctrl_drops (ctrl_types fs) news))) \/
  (lengths_eval fs news /\ ~ same_lengths fs (vctrls fs vs) news /\
   try_set_layout_controllers fs a dp news w = Ok false (add_log w (ctrl_drops (ctrl_types fs) news))) \/
  (lengths_eval fs news /\ same_lengths fs (vctrls fs vs) news /\ exists w' (k : nat), (k <= length news)%nat /\
    repr_flds (w_mem w') fs a (with_ctrls fs vs (mixed k news (vctrls fs vs))) hs /\
    outside_ctrls fs a (w_mem w) (w_mem w') /\
    w_blocks w' = w_blocks w /\ w_alloc w' = w_alloc w /\ w_tick w' = w_tick w /\
    ((k = length news /\ try_set_layout_controllers fs a dp news w = Ok true w' /\
      w_log w' = w_log w ++ ctrl_drops (ctrl_types fs) (vctrls fs vs) /\
      forall j, ctrl_panics dp (ctrl_types fs) (vctrls fs vs) j = false) \/
     ((exists old, In old (vctrls fs vs) /\ dp old = true) /\
      try_set_layout_controllers fs a dp news w = Panic w' /\
      w_log w' = w_log w ++ ctrl_drops (firstn k (ctrl_types fs)) (vctrls fs vs) ++
                            ctrl_drops (skipn k (ctrl_types fs)) (skipn k news) /\
      first_panic dp (ctrl_types fs) (vctrls fs vs) k))).
Proof.
  intros t Hwf Ho Hn. pose proof Ho as (Hv & Hp & Hr).
  assert (Hge : hs <= sp_end fs (map vshape vs) hs) by (apply sp_end_ge, Hwf).
  destruct (rec_place KStruct hs ha fs (w_blocks w) a _ Hwf Hp Hge) as [Hfp Hh].
  destruct Hwf as ((Q1 & Q2 & Q3 & Q4 & Q5) & Q6 & Q7).
  assert (Hh' : hdr_in fs (sp_align t) hs).
  { intros off g Hin. destruct (Q4 off g Hin) as (A1 & A2 & A3). repeat split; auto. unfold t; cbn [sp_align]. lia. }
  unfold try_set_layout_controllers. cbn [vok repr] in Hv, Hr.
  step (load_ctrls_ok fs w a _ _ vs _ hs Q6 Hfp Hh Hv Hr).
  assert (Ed : for_each (fun '(f, v) => drop_value f v) (combine (map snd (ctrl_fields fs)) news) w =
               Ok tt (add_log w (ctrl_drops (ctrl_types fs) news))) by (rewrite <- ctrl_types_eq; apply drop_pairs_ok).
  destruct (lengths_eval_dec fs news) as [Hz|Hz].
  2:{ left. split; [exact Hz|]. apply bind_panic. eapply on_unwind_panic; [|exact Ed].
      apply compare_panic; [exact (vok_lengths fs vs _ Hv)|exact Hz]. }
  right. step (on_unwind_ok _ (for_each (fun '(f, v) => drop_value f v) (combine (map snd (ctrl_fields fs)) news)) _ _ _
    (compare_ok fs (vctrls fs vs) news w (vok_lengths fs vs _ Hv) Hz)).
  replace (forallb (fun b : bool => b) (map (fun lf => lf (vctrls fs vs) =? lf news) (len_fns fs)))
    with (forallb (fun lf => lf (vctrls fs vs) =? lf news) (len_fns fs)) by (induction (len_fns fs) as [|lf l IHl]; cbn; congruence).
  destruct (forallb (fun lf => lf (vctrls fs vs) =? lf news) (len_fns fs)) eqn:E.
  - right. split; [exact Hz|]. split; [now apply same_lengths_test|].
    destruct (set_ctrls_ok dp fs Q6 Q5 w a vs _ hs _ hs news (N.le_refl _) Hh' Hv Hn Hfp Hr)
      as (w' & k & Hk & R' & O' & B' & A' & T' & H).
    exists w', k. repeat (split; [auto|]). destruct H as [(-> & E1 & L & F & _)|(Hd & E1 & L & F & _)].
    + left. split; [auto|]. split; [now step E1|auto].
    + right. split; [auto|]. split; [now rewrite (bind_panic _ _ _ _ E1)|auto].
  - left. split; [exact Hz|]. split.
    + intros H. apply same_lengths_test in H. congruence.
    + now step Ed.
Qed.
