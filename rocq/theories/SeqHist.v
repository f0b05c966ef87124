(** SeqHist.v - the invariant of a sequence under any history of operations. *)
From Verif Require Export History BoxFacts.

(** An element changes in place. *)
Lemma seq_elem_ok w w' t chk s vs k v v' :
  wf_ty t -> wf_blocks (w_blocks w) -> seq_at w t chk s vs -> nth_error vs k = Some v ->
  let a := s_ptr s + total t (firstn k vs) * sp_align t in
  w_blocks w' = w_blocks w -> same_outside (w_mem w) (w_mem w') a (vsize t v) ->
  obj_at w' t a v' -> vshape v' = vshape v ->
  seq_at w' t chk s (replace_nth vs k v') /\
  (forall old, chk = true -> bits_within w t s vs old -> bits_within w' t s (replace_nth vs k v') old).
Proof.
  intros Hwf Hbl Hat Hk a Hbk Hso Ho' Hsh.
  pose proof (total_nth t vs k v Hk) as Htn. pose proof (cells_ge t v Hwf) as Hcg. pose proof (sp_align_pos t Hwf) as Hp.
  destruct Hat as (A1 & A2 & A3 & [[_ ->]|(B1 & B2 & B3 & B4 & B5 & B6)]); [destruct k; discriminate|].
  assert (Hbm : forall j, w_mem w' (s_ptr s + s_cap s * sp_align t + j) = w_mem w (s_ptr s + s_cap s * sp_align t + j)).
  { intros j. apply Hso. unfold a. rewrite A2 in A3. nia. }
  split.
  - split; [rewrite len_replace; exact A1|]. split; [rewrite (total_put t vs k v) by auto; exact A2|]. split; [exact A3|]. right.
    rewrite Hbk. repeat split; auto.
    + apply (elems_put t (w_mem w) (w_mem w') (s_ptr s) vs k v); auto; apply Ho'.
    + intros Hc j Hj. rewrite Hbm. auto.
  - intros old0 Hc Hb. unfold bits_within. rewrite (starts_put t vs k v) by auto. eapply bits_mem; eauto.
Qed.
Lemma replace_same {A} (l : list A) k x : nth_error l k = Some x -> replace_nth l k x = l.
Proof. revert k; induction l as [|y l IH]; intros [|k] H; cbn in *; try discriminate; [congruence|]. now rewrite IH. Qed.

Lemma ctrl_in_head fs off f : In (off, f) (ctrl_fields fs) -> In (off, f) (head_fields fs).
Proof. induction fs; cbn [ctrl_fields head_fields In]; auto; intros [H|H]; auto. Qed.
Lemma seq_ctrls_ok w t chk s vs k us a hs ha fs dp news r w' :
  wf_ty t -> wf_blocks (w_blocks w) -> seq_at w t chk s vs ->
  nth_error vs k = Some (VRec us) -> nth_error (addrs t (s_ptr s) vs) k = Some a ->
  t = TRec KStruct hs ha fs -> ctrls_ok fs news ->
  try_set_layout_controllers fs a dp news w = Ok r w' ->
  let vs' := if r : bool then replace_nth vs k (VRec (with_ctrls fs us news)) else vs in
  w_blocks w' = w_blocks w /\ seq_at w' t chk s vs' /\
  (forall old, chk = true -> bits_within w t s vs old -> bits_within w' t s vs' old) /\
  same_outside (w_mem w) (w_mem w') a (vsize t (VRec us)) /\
  (r = true <-> same_lengths fs (vctrls fs us) news) /\
  w_log w' = w_log w ++ ctrl_drops (ctrl_types fs) (if r then vctrls fs us else news).
Proof.
  intros Hwf Hbl Hat Hk Ha Et Hn E. rewrite (nth_addrs t (s_ptr s) vs k _ Hk) in Ha. injection Ha as <-.
  destruct (seq_iter_at _ _ _ _ _ Hwf Hbl Hat) as (_ & _ & Hobjs). cbn [seq_iter it_ptr] in Hobjs.
  pose proof (objs_nth w t (s_ptr s) vs k _ Hobjs Hk) as Ho. set (a := s_ptr s + total t (firstn k vs) * sp_align t) in *.
  subst t. set (t := TRec KStruct hs ha fs) in *.
  destruct (try_set_obj hs ha fs w a us dp news r w' Hwf Ho Hn E) as (vs1 & Ho' & Hsh & Hb & Evs & _ & Hr & Hlog & Hout).
  assert (Hso : same_outside (w_mem w) (w_mem w') a (vsize t (VRec us))).
  { pose proof Hwf as HwfT. intros x Hx. apply Hout. intros off f Hin. destruct Hwf as ((_ & _ & _ & Hh & _) & _).
    destruct (Hh off f (ctrl_in_head fs off f Hin)) as (_ & H & _).
    pose proof (head_size_le t (VRec us) HwfT (proj1 Ho)) as Hle.
    cbn [t head_size] in Hle. lia. }
  destruct (seq_elem_ok w w' t chk s vs k (VRec us) (VRec vs1) Hwf Hbl Hat Hk Hb Hso Ho' ltac:(cbn [vshape]; now rewrite Hsh)) as [S1 S2].
  split; [exact Hb|]. subst vs1.
  assert (Ex : replace_nth vs k (VRec (if r then with_ctrls fs us news else us)) = if r then replace_nth vs k (VRec (with_ctrls fs us news)) else vs).
  { destruct r; [reflexivity|]. now apply replace_same. }
  rewrite Ex in S1, S2. split; [exact S1|]. split; [exact S2|]. split; [exact Hso|]. split; [exact Hr|exact Hlog].
Qed.

Lemma shist_inv t chk w s vs old :
  wf_ty t -> nonzst t -> shist t chk w s vs old ->
  seq_at w t chk s vs /\ wf_blocks (w_blocks w) /\ (chk = true -> bits_within w t s vs old).
Proof.
  intros Hwf Hz. induction 1 as [w Hbl|w s vs old i v w' s' H IH Hr E Ev|w s vs old i w' s' H IH Hr E
    |w s vs old k v a p f new w' H IH Hk Ha Hm Hn E|w s vs old k us a hs ha fs dp news r w' H IH Hk Ha Et Hn E
    |w s vs old it w1 s' w2 H IH E Hbl2 Hb|w s vs old w' H IH Hbl' Hb].
  - split; [apply seq_new_at; auto|]. split; [exact Hbl|]. intros _. apply seq_new_bits.
  - destruct IH as (I2 & I3 & I4). pose proof (push_inv_ok t chk w s i vs Hwf Hz I3 I2 Hr) as HP. rewrite E in HP.
    destruct HP as (v' & Ev' & P1 & P2 & P3 & P4 & _). rewrite Ev in Ev'. injection Ev' as <-. auto.
  - destruct IH as (I2 & I3 & I4). pose proof (push_inv_ok t chk w s i vs Hwf Hz I3 I2 Hr) as HP. rewrite E in HP.
    destruct HP as (P1 & P2 & P3 & P4 & _). auto.
  - destruct IH as (I2 & I3 & I4).
    destruct (seq_iter_at _ _ _ _ _ Hwf I3 I2) as (_ & _ & Hobjs). cbn [seq_iter it_ptr] in Hobjs.
    pose proof (objs_nth w t (s_ptr s) vs k v Hobjs Hk) as Ho.
    pose proof Ha as Ha'. rewrite (nth_addrs t (s_ptr s) vs k v Hk) in Ha'. injection Ha' as Ea. rewrite Ea in Ho.
    pose proof (assign_ok t w a v p f new Hwf Ho Hm Hn) as HA. destruct (leaf v p) as [o|] eqn:El; [|rewrite E in HA; discriminate].
    destruct (seq_assign_ok w t chk s vs k v a p f new o Hwf I3 I2 Hk Ha Hm Hn El) as (w1 & E1 & S1 & S2 & _ & _ & S3).
    rewrite E in E1. injection E1 as <-. rewrite S2. auto.
  - destruct IH as (I2 & I3 & I4).
    destruct (seq_ctrls_ok w t chk s vs k us a hs ha fs dp news r w' Hwf I3 I2 Hk Ha Et Hn E) as (S1 & S2 & S3 & _). rewrite S1. auto.
  - destruct IH as (I2 & I3 & I4). destruct (take_elems_ok w t chk s vs Hwf I3 I2) as (w1' & it' & E' & (H1 & H2 & _) & _ & _ & Hat1).
    rewrite E in E'. injection E' as -> -> ->. rename w1' into w1.
    assert (Hc : s_cap s = 0 \/ 0 < s_cap s) by lia.
    destruct Hat1 as (T1 & T2 & T3 & [[[E0 E1] _]|(B1 & B2 & B3 & B4 & B5 & B6)]); cbn [s_cap s_ptr] in *.
    + split; [|split; [exact Hbl2|intros _ X; cbn [s_cap] in X; lia]].
      split; [reflexivity|]. split; [reflexivity|]. split; [cbn; lia|]. left. auto.
    + destruct (Hb _ B2) as [X1 X2].
      { cbn [seq_block b_base s_ptr]. unfold seq_base. destruct (N.eqb_spec (s_cap s) 0); [lia|left; reflexivity]. }
      cbn [seq_block b_base b_size s_ptr s_cap] in X2.
      assert (Hbm : chk = true -> forall j, j < bitmap_bytes (s_cap s) ->
         w_mem w2 (s_ptr s + s_cap s * sp_align t + j) = w_mem w (s_ptr s + s_cap s * sp_align t + j)).
      { intros Hck j Hj. rewrite X2, H1; [reflexivity|]. unfold storage_bytes. rewrite Hck. lia. }
      split; [|split; [exact Hbl2|]].
      * split; [reflexivity|]. split; [reflexivity|]. split; [cbn; lia|]. right. cbn [s_cap s_ptr].
        repeat split; auto. intros Hck j Hj. rewrite (Hbm Hck j Hj). rewrite <- H1. auto.
      * intros Hck _ o Ho Hoc. cbn [s_cap s_occ s_ptr] in *. split; [intros []|]. intros Hbit.
        assert (Hbw : bit_at w t s o = true).
        { unfold bit_at in *. cbn [s_cap s_ptr] in *. rewrite Hbm in Hbit; auto. apply N.div_lt_upper_bound; lia. }
        right. rewrite !in_app_iff. destruct (N.eq_dec o (s_occ s)) as [->|Hne].
        -- right. right. left. symmetry. apply I2.
        -- destruct (proj2 (I4 Hck B1 o Ho Hne) Hbw); tauto.
  - destruct IH as (I2 & I3 & I4). destruct (seq_at_env w w' t chk s vs Hwf I2 Hb) as [J1 J2]. auto.
Qed.
(** A history of pushes only is a history. *)
Lemma hist_shist t chk w s is_ : wf_ty t -> nonzst t -> hist t chk w s is_ -> exists vs, ivalues t is_ vs /\ shist t chk w s vs [].
Proof.
  intros Hwf Hz. induction 1 as [w Hbl|w s is_ i w' s' H (vs & IH1 & IH2) Hr E|w s is_ i w' s' H (vs & IH1 & IH2) Hr E|w s is_ w' H (vs & IH1 & IH2) Hbl' Hb].
  - exists []. split; [reflexivity|now constructor].
  - destruct (shist_inv t chk w s vs [] Hwf Hz IH2) as (I2 & I3 & _).
    pose proof (push_inv_ok t chk w s i vs Hwf Hz I3 I2 Hr) as HP. rewrite E in HP. destruct HP as (v & Ev & _).
    exists (vs ++ [v]). split; [unfold ivalues in *; rewrite !map_app, IH1; cbn; now rewrite Ev|]. eapply S_push; eauto.
  - exists vs. split; [exact IH1|]. eapply S_fail; eauto.
  - exists vs. split; [exact IH1|]. eapply S_env; eauto.
Qed.
