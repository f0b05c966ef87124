(** SeqIter.v - iteration, offsets, draining and dropping of sequences. *)
From Verif Require Export SeqPush.

Lemma cells_add t v k : (cells t v + k) * sp_align t = cells t v * sp_align t + k * sp_align t.
Proof. lia. Qed.

Lemma elems_objs w t chk s base vs :
  wf_ty t -> In (seq_block t chk s) (w_blocks w) -> wf_blocks (w_blocks w) ->
  s_ptr s <= base -> base mod sp_align t = 0 ->
  base + total t vs * sp_align t <= s_ptr s + s_cap s * sp_align t ->
  elems_at (w_mem w) t base vs -> objs_at w t base vs.
Proof.
  intros Hwf Hin Hbl. pose proof (sp_align_pos t Hwf) as Hp.
  pose proof (wf_block_in _ _ Hbl Hin) as (B0 & B1 & B2). cbn [seq_block b_base b_size] in *.
  revert base; induction vs as [|v vs IH]; intros base H1 H2 H3 He; cbn [objs_at elems_at total] in *; [exact I|].
  destruct He as (E1 & E2 & E3). pose proof (cells_ge t v Hwf) as Hc.
  assert (Hst : s_cap s * sp_align t <= storage_bytes t chk (s_cap s)) by (unfold storage_bytes; lia).
  split.
  - split; [exact E1|]. split; [|exact E2]. split; [lia|]. split; [exact H2|]. split; [nia|].
    right. exists (seq_block t chk s). split; [exact Hin|]. cbn [seq_block b_base b_size]. nia.
  - apply IH; auto; try lia.
    rewrite N.add_mod by lia. rewrite H2, N.mod_mul by lia. reflexivity.
Qed.
Lemma seq_iter_at w t chk s vs :
  wf_ty t -> wf_blocks (w_blocks w) -> seq_at w t chk s vs -> iter_at w t (seq_iter s) vs.
Proof.
  intros Hwf Hbl (A1 & A2 & A3 & A4). split; [exact A1|]. cbn [seq_iter it_ptr].
  destruct A4 as [[E ->]|(B1 & B2 & B3 & B4 & B5 & B6)].
  - cbn. split; [lia|exact I].
  - pose proof (wf_block_in _ _ Hbl B2) as (C0 & C1 & C2). cbn [seq_block b_base b_size] in *.
    assert (Hst : s_cap s * sp_align t <= storage_bytes t chk (s_cap s)) by (unfold storage_bytes; lia).
    rewrite <- A2. split; [nia|]. eapply elems_objs; eauto; [lia|]. rewrite <- A2. nia.
Qed.

Lemma up_cells t v : cells t v * sp_align t = up (vsize t v) (sp_align t).
Proof. reflexivity. Qed.
Lemma lay_size_vshape t v : vok t v -> lay_size (sp_lay t (vshape v)) = vsize t v.
Proof. intros H. unfold vsize. now rewrite (lay_size_sp t v H). Qed.

Lemma iter_next_cons w t it v vs :
  wf_ty t -> iter_at w t it (v :: vs) ->
  exists it', iter_next t it w = Ok (Some (it_ptr it), it') w /\ iter_at w t it' vs /\
    it' = mkI (it_ptr it + cells t v * sp_align t) (len vs).
Proof.
  intros Hwf (A1 & A2 & Ho & A3). rewrite len_cons in A1. unfold iter_next. rewrite A1.
  destruct (N.ltb_spec 0 (1 + len vs)); [|lia].
  step (deref_ok t w (it_ptr it) v Hwf Ho). step (calc_layout_ok t w (it_ptr it) v Hwf Ho).
  cbn [total] in A2. rewrite cells_add in A2.
  destruct Ho as (Hv & Ho). rewrite (lay_size_vshape t v Hv), (valign_sp t Hwf).
  unfold round_up_fast. rewrite mask_up by (first [apply sp_align_pow2; auto | rewrite <- up_cells; lia]).
  rewrite <- up_cells. unfold wrapping_add. rewrite N.mod_small by lia.
  eexists. split; [reflexivity|]. replace (1 + len vs - 1) with (len vs) by lia. split; [|reflexivity].
  split; [reflexivity|]. cbn [it_ptr]. split; [lia|exact A3].
Qed.
Lemma iter_next_nil w t it : iter_at w t it [] -> iter_next t it w = Ok (None, it) w.
Proof. intros (A1 & _). unfold iter_next. rewrite A1. reflexivity. Qed.

Lemma starts_shift t vs o k : starts t vs (o + k) = map (fun x => x + k) (starts t vs o).
Proof.
  revert o; induction vs as [|v vs IH]; intros o; cbn [starts map]; [reflexivity|]. f_equal.
  rewrite <- IH. f_equal. lia.
Qed.
Lemma addrs_cons t base v vs : addrs t base (v :: vs) = base :: addrs t (base + cells t v * sp_align t) vs.
Proof.
  unfold addrs. cbn [starts map]. f_equal; [lia|].
  rewrite starts_shift, map_map. apply map_ext. intros x. lia.
Qed.

Lemma iter_collect_ok w t it vs fuel :
  wf_ty t -> iter_at w t it vs -> (length vs < fuel)%nat ->
  iter_collect t fuel it w = Ok (addrs t (it_ptr it) vs) w.
Proof.
  intros Hwf. revert it fuel; induction vs as [|v vs IH]; intros it fuel Ha Hf; (destruct fuel as [|fuel]; [cbn in Hf; lia|]).
  - cbn [iter_collect]. step (iter_next_nil w t it Ha). reflexivity.
  - cbn [iter_collect]. destruct (iter_next_cons w t it v vs Hwf Ha) as (it' & E & Ha' & Eit). step E. cbn [fst snd].
    step (IH it' fuel Ha' ltac:(cbn in Hf; lia)). rewrite addrs_cons, Eit. reflexivity.
Qed.
Lemma mapM_view w t base vs :
  wf_ty t -> objs_at w t base vs -> mapM (view t) (addrs t base vs) w = Ok vs w.
Proof.
  intros Hwf. revert base; induction vs as [|v vs IH]; intros base H; [reflexivity|].
  rewrite addrs_cons. cbn [mapM]. destruct H as [H1 H2]. step (view_ok t w base v Hwf H1). step (IH _ H2). reflexivity.
Qed.
Lemma seq_contents_ok w t chk s vs :
  wf_ty t -> wf_blocks (w_blocks w) -> seq_at w t chk s vs -> seq_contents t s w = Ok vs w.
Proof.
  intros Hwf Hbl Hat. pose proof (seq_iter_at _ _ _ _ _ Hwf Hbl Hat) as Hit. unfold seq_contents.
  assert (Hl : s_len s = len vs) by apply Hat.
  step (iter_collect_ok w t (seq_iter s) vs (S (N.to_nat (s_len s))) Hwf Hit ltac:(rewrite Hl; unfold len; lia)).
  apply mapM_view; auto. apply Hit.
Qed.

(** limited_to *)
Lemma objs_firstn w t base vs n : objs_at w t base vs -> objs_at w t base (firstn n vs).
Proof.
  revert base n; induction vs as [|v vs IH]; intros base n H; destruct n; cbn [firstn objs_at] in *; auto.
  destruct H; split; auto.
Qed.
Lemma total_firstn t vs n : total t (firstn n vs) <= total t vs.
Proof. revert n; induction vs as [|v vs IH]; intros n; destruct n; cbn [firstn total]; try lia. specialize (IH n). lia. Qed.
Lemma limited_to_at w t it vs n :
  iter_at w t it vs -> iter_at w t (limited_to it n) (firstn (N.to_nat n) vs).
Proof.
  intros (A1 & A2 & A3). split; [|split]; cbn [limited_to it_len it_ptr].
  - rewrite A1. unfold len. rewrite firstn_length. lia.
  - pose proof (total_firstn t vs (N.to_nat n)). nia.
  - apply objs_firstn, A3.
Qed.

(** ** single elements *)
Lemma starts_len t vs o : length (starts t vs o) = length vs.
Proof. revert o; induction vs as [|v vs IH]; intros o; cbn; auto. Qed.
Lemma starts_nth t vs o k : (k < length vs)%nat -> nth_error (starts t vs o) k = Some (o + total t (firstn k vs)).
Proof.
  revert o k; induction vs as [|v vs IH]; intros o k H; [cbn in H; lia|].
  destruct k; cbn [starts nth_error firstn total]; [f_equal; lia|]. rewrite IH by (cbn in H; lia). f_equal. lia.
Qed.
Lemma objs_nth w t base vs k v :
  objs_at w t base vs -> nth_error vs k = Some v -> obj_at w t (base + total t (firstn k vs) * sp_align t) v.
Proof.
  revert base k; induction vs as [|x vs IH]; intros base k H Hk; [destruct k; discriminate|]. destruct H as [H1 H2].
  destruct k; cbn [nth_error firstn total] in *.
  - injection Hk as ->. replace (base + 0 * sp_align t) with base by lia. exact H1.
  - specialize (IH _ _ H2 Hk). replace (base + (cells t x + total t (firstn k vs)) * sp_align t)
      with (base + cells t x * sp_align t + total t (firstn k vs) * sp_align t) by lia. exact IH.
Qed.
Lemma in_starts_nth t vs o : In o (starts t vs 0) -> exists k v, nth_error vs k = Some v /\ o = total t (firstn k vs).
Proof.
  intros H. apply In_nth_error in H. destruct H as [k Hk].
  assert (Hl : (k < length vs)%nat).
  { rewrite <- (starts_len t vs 0). apply nth_error_Some. congruence. }
  destruct (nth_error vs k) as [v|] eqn:Ev; [|apply nth_error_None in Ev; lia].
  exists k, v. split; [exact Ev|]. rewrite starts_nth in Hk by auto. injection Hk as <-. lia.
Qed.

Lemma offset_of_in w t chk s vs o :
  wf_ty t -> nonzst t -> wf_blocks (w_blocks w) -> seq_at w t chk s vs -> In o (starts t vs 0) ->
  offset_of t s (s_ptr s + o * sp_align t) w = Ok o w.
Proof.
  intros Hwf Hz Hbl Hat Hin. pose proof (sp_align_pos t Hwf) as Hp. pose proof Hat as (A1 & A2 & A3 & A4).
  destruct A4 as [[E ->]|(B1 & B2 & B3 & B4 & B5 & B6)]; [contradiction|].
  pose proof (starts_lt t vs 0 o Hwf Hz (elems_vok _ _ _ _ B5) Hin) as Hlt. rewrite <- A2 in Hlt.
  destruct (in_storage_W _ _ _ _ _ Hbl Hat B1) as [P0 PW].
  assert (Hst : s_cap s * sp_align t <= storage_bytes t chk (s_cap s)) by (unfold storage_bytes; lia).
  unfold offset_of. rewrite (valign_sp t Hwf).
  assert (E : wrapping_sub (s_ptr s + o * sp_align t) (s_ptr s) = o * sp_align t).
  { unfold wrapping_sub. rewrite (N.mod_small (s_ptr s)) by lia.
    replace (s_ptr s + o * sp_align t + (W - s_ptr s)) with (o * sp_align t + 1 * W) by lia.
    rewrite N.mod_add by (rewrite W_eq; lia). apply N.mod_small. nia. }
  rewrite E, N.div_mul by lia. destruct (N.leb_spec (s_occ s) o); [lia|reflexivity].
Qed.
Lemma offset_of_out w t chk s vs e :
  wf_ty t -> wf_blocks (w_blocks w) -> seq_at w t chk s vs -> e < W ->
  (e < s_ptr s \/ s_ptr s + s_occ s * sp_align t <= e) -> offset_of t s e w = Panic w.
Proof.
  intros Hwf Hbl Hat He Hout. pose proof (sp_align_pos t Hwf) as Hp. unfold offset_of. rewrite (valign_sp t Hwf).
  assert (Hend : s_ptr s + s_occ s * sp_align t < W).
  { pose proof (seq_iter_at _ _ _ _ _ Hwf Hbl Hat) as (_ & H & _). cbn in H. destruct Hat as (_ & -> & _). exact H. }
  assert (H : s_occ s * sp_align t <= wrapping_sub e (s_ptr s)).
  { unfold wrapping_sub. rewrite (N.mod_small (s_ptr s)) by lia. destruct Hout as [H|H].
    - rewrite N.mod_small by lia. lia.
    - replace (e + (W - s_ptr s)) with ((e - s_ptr s) + 1 * W) by lia.
      rewrite N.mod_add by (rewrite W_eq; lia). rewrite N.mod_small by lia. lia. }
  assert (s_occ s <= wrapping_sub e (s_ptr s) / sp_align t) by (apply N.div_le_lower_bound; lia).
  destruct (N.leb_spec (s_occ s) (wrapping_sub e (s_ptr s) / sp_align t)); [reflexivity|lia].
Qed.
Lemma from_offset_unchecked_ok w t chk s vs o :
  wf_ty t -> wf_blocks (w_blocks w) -> seq_at w t chk s vs -> In o (starts t vs 0) ->
  from_offset_unchecked t s o w = Ok (s_ptr s + o * sp_align t) w.
Proof.
  intros Hwf Hbl Hat Hin. pose proof (sp_align_pos t Hwf) as Hp. destruct (in_starts_nth t vs o Hin) as (k & v & Hk & ->).
  pose proof Hat as (A1 & A2 & A3 & [[E ->]|(B1 & _)]); [destruct k; discriminate|].
  destruct (in_storage_W _ _ _ _ _ Hbl Hat B1) as [P0 PW].
  pose proof (seq_iter_at w t chk s vs Hwf Hbl Hat) as (_ & H & Ho). cbn [seq_iter it_ptr] in *.
  pose proof (total_firstn t vs k) as Hle.
  pose proof (objs_nth w t (s_ptr s) vs k v Ho Hk) as Hobj.
  assert (Hb : total t (firstn k vs) * sp_align t < W) by nia.
  unfold from_offset_unchecked, pmul. rewrite (valign_sp t Hwf). destruct (N.ltb_spec (total t (firstn k vs) * sp_align t) W); [|lia].
  unfold bind at 1, ret at 1. unfold wrapping_add. rewrite N.mod_small by nia.
  step (deref_ok t w _ v Hwf Hobj). reflexivity.
Qed.

(** ** the bitmap *)
Lemma land_pow_testbit b k : negb (N.land b (2 ^ k) =? 0) = N.testbit b k.
Proof.
  destruct (N.testbit b k) eqn:E.
  - destruct (N.eqb_spec (N.land b (2 ^ k)) 0) as [H|H]; [|reflexivity]. exfalso.
    assert (Hb : N.testbit (N.land b (2 ^ k)) k = true) by (rewrite N.land_spec, E, N.pow2_bits_true; reflexivity).
    rewrite H, N.bits_0 in Hb. discriminate.
  - destruct (N.eqb_spec (N.land b (2 ^ k)) 0) as [H|H]; [reflexivity|]. exfalso. apply H.
    apply N.bits_inj. intros j. rewrite N.land_spec, N.bits_0, N.pow2_bits_eqb.
    destruct (N.eqb_spec k j) as [<-|]; [now rewrite E|]. apply andb_false_r.
Qed.
Lemma is_offset_valid_bit w t s vs o :
  wf_ty t -> wf_blocks (w_blocks w) -> seq_at w t true s vs ->
  is_offset_valid t s o w = Ok (if s_occ s <=? o then false else bit_at w t s o) w.
Proof.
  intros Hwf Hbl Hat. unfold is_offset_valid. destruct (N.leb_spec (s_occ s) o) as [H|H]; [reflexivity|].
  pose proof Hat as (A1 & A2 & A3 & [[E ->]|(B1 & B2 & B3 & B4 & B5 & B6)]); [cbn in *; lia|].
  destruct (in_storage_W _ _ _ _ _ Hbl Hat B1) as [P0 PW].
  change (storage_bytes t true (s_cap s)) with (s_cap s * sp_align t + bitmap_bytes (s_cap s)) in *.
  assert (Hj : o / 8 < bitmap_bytes (s_cap s)).
  { unfold bitmap_bytes. pose proof (N.div_mod o 8 ltac:(lia)). pose proof (N.mod_lt o 8 ltac:(lia)).
    pose proof (N.div_mod (s_cap s + 7) 8 ltac:(lia)). pose proof (N.mod_lt (s_cap s + 7) 8 ltac:(lia)). lia. }
  rewrite (valign_sp t Hwf). unfold pmul. destruct (N.ltb_spec (s_cap s * sp_align t) W); [|lia].
  unfold bind at 1, ret at 1. unfold padd. destruct (N.ltb_spec (s_cap s * sp_align t + o / 8) W); [|lia].
  unfold bind at 1, ret at 1. unfold wrapping_add. rewrite N.mod_small by lia. rewrite N.add_assoc.
  set (q := s_ptr s + s_cap s * sp_align t + o / 8).
  assert (Hl : live (w_blocks w) q 1).
  { right. exists (seq_block t true s). split; [exact B2|]. cbn [seq_block b_base b_size].
    change (storage_bytes t true (s_cap s)) with (s_cap s * sp_align t + bitmap_bytes (s_cap s)). unfold q. lia. }
  step (load_ok w q 1 1 ltac:(unfold q; lia) (N.mod_1_r _) Hl). change (rd (w_mem w) q 1) with [w_mem w q].
  destruct (B6 eq_refl _ Hj) as (b & Eb & _). fold q in Eb. unfold bit_at. fold q. rewrite Eb. unfold ret.
  now rewrite land_pow_testbit.
Qed.
Lemma bits_within_exact w t s vs : bits_within w t s vs [] <-> bits_exact w t s vs.
Proof.
  unfold bits_within, bits_exact. split; intros H Hc o Ho Hoc; specialize (H Hc o Ho Hoc); cbn [In] in *; tauto.
Qed.
Lemma bit_at_starts w t s vs o :
  wf_ty t -> seq_at w t true s vs -> bits_exact w t s vs -> o < s_occ s ->
  (bit_at w t s o = true <-> In o (starts t vs 0)).
Proof.
  intros Hwf (A1 & A2 & A3 & _) Hb H. apply Hb; try lia. destruct (bitmap_cover (s_cap s)). lia.
Qed.
Lemma is_offset_valid_ok w t s vs o :
  wf_ty t -> nonzst t -> wf_blocks (w_blocks w) -> seq_at w t true s vs -> bits_exact w t s vs ->
  exists b : bool, is_offset_valid t s o w = Ok b w /\ (b = true <-> In o (starts t vs 0)).
Proof.
  intros Hwf Hz Hbl Hat Hb. eexists. split; [apply (is_offset_valid_bit w t s vs o); auto|].
  pose proof Hat as (A1 & A2 & A3 & A4). destruct (N.leb_spec (s_occ s) o) as [H|H].
  - split; [discriminate|]. intros Hin. exfalso.
    assert (Hv : Forall (vok t) vs) by (destruct A4 as [[_ ->]|(_ & _ & _ & _ & B5 & _)]; [constructor|eapply elems_vok, B5]).
    pose proof (starts_lt t vs 0 o Hwf Hz Hv Hin). lia.
  - apply (bit_at_starts w t s vs o); auto.
Qed.
Lemma from_offset_ok w t s vs o :
  wf_ty t -> nonzst t -> wf_blocks (w_blocks w) -> seq_at w t true s vs -> bits_exact w t s vs ->
  (In o (starts t vs 0) /\ from_offset t s o w = Ok (s_ptr s + o * sp_align t) w) \/
  (~ In o (starts t vs 0) /\ from_offset t s o w = Panic w).
Proof.
  intros Hwf Hz Hbl Hat Hb. destruct (is_offset_valid_ok w t s vs o Hwf Hz Hbl Hat Hb) as (b & E & Hbb).
  unfold from_offset. rewrite (bind_ok _ _ _ _ _ E). destruct b.
  - left. split; [apply Hbb; reflexivity|]. apply (from_offset_unchecked_ok w t true s vs); auto. apply Hbb; reflexivity.
  - right. split; [|reflexivity]. intros H. apply Hbb in H. discriminate.
Qed.
