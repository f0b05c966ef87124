(** SeqPush.v - pushing to a sequence. *)
From Verif Require Export SeqBase.

(** ** initializers describe values, so they inherit the non-zero size *)
Lemma len_repeat {A} (x : A) n : len (repeat x n) = N.of_nat n.
Proof. unfold len. now rewrite repeat_length. Qed.
Lemma len_map {A B} (f : A -> B) l : len (map f l) = len l.
Proof. unfold len. now rewrite map_length. Qed.
Lemma elems_repeat f n : elems_ok f (repeat (repeat Un (N.to_nat (f_size f))) n).
Proof. apply Forall_forall. intros x Hx. apply repeat_spec in Hx. subst x. rewrite len_repeat. lia. Qed.
Lemma iwt_value :
  (forall t i, iwt t i -> ilens t i = true -> exists v, vok t v /\ vshape v = ishape t i) /\
  (forall fs is_ cs, iwt_flds fs is_ -> ilens_flds fs is_ cs = true ->
     exists vs, vok_flds fs vs cs /\ map vshape vs = ishapes fs is_ cs /\ vctrls fs vs = ictrls fs is_).
Proof.
  apply vty_flds_ind.
  - intros f i Hi Hz. destruct i; cbn [iwt ishape] in *; try contradiction; try (exists (VFix v); auto; fail); try (exists (VFix ghost); auto; fail); try (exists ghost; tauto).
  - intros f k i Hi Hz. destruct i; cbn [iwt ishape] in *; try contradiction; try (exists ghost; tauto).
    destruct Hi as [Ha Hn]. exists (VArr (repeat (repeat Un (N.to_nat (f_size f))) (N.to_nat n))).
    cbn [vok vshape]. rewrite len_repeat, N2Nat.id. split; [split|]; auto. apply elems_repeat.
  - intros t IH i Hi Hz. destruct i; cbn [iwt ishape ilens] in *; try contradiction; try (exists ghost; tauto).
    destruct (IH _ Hi Hz) as (v & H1 & H2). exists (VNew v). auto.
  - intros kd hs ha fs IH i Hi Hz. destruct i as [ | | | | |is_| | | |]; cbn [iwt ishape ilens] in *; try contradiction; try (exists ghost; tauto).
    destruct (IH is_ (ictrls fs is_) Hi Hz) as (vs & H1 & H2 & H3). exists (VRec vs). cbn [vok vshape]. rewrite H2, H3. auto.
  - intros is_ cs Hi Hz. destruct is_; cbn in *; try contradiction. exists []. auto.
  - intros off f r IH is_ cs Hi Hz. destruct is_ as [|[] is_]; cbn [iwt_flds ilens_flds] in *; try contradiction.
    destruct Hi as [H1 H2]. destruct (IH is_ cs H2 Hz) as (vs & A & B & C). exists (VFix v :: vs). cbn. rewrite B, C. auto.
  - intros off f r IH is_ cs Hi Hz. destruct is_ as [|[] is_]; cbn [iwt_flds ilens_flds] in *; try contradiction.
    destruct Hi as [H1 H2]. destruct (IH is_ cs H2 Hz) as (vs & A & B & C). exists (VFix v :: vs). cbn. rewrite B, C. auto.
  - intros t IHt r IH is_ cs Hi Hz. destruct is_ as [|i is_]; cbn [iwt_flds ilens_flds] in *; try contradiction.
    apply andb_prop in Hz. destruct Hz as [Hz1 Hz2].
    destruct Hi as [H1 H2]. destruct (IHt i H1 Hz1) as (v & D & E). destruct (IH is_ cs H2 Hz2) as (vs & A & B & C).
    exists (v :: vs). cbn. rewrite B, C, E. auto.
  - intros f lf r IH is_ cs Hi Hz. destruct is_ as [|[] is_]; cbn [iwt_flds ilens_flds] in *; try contradiction.
    apply andb_prop in Hz. destruct Hz as [Hz1 Hz2]. apply N.ltb_lt in Hz1.
    destruct Hi as [H1 H2]. destruct (IH is_ cs H2 Hz2) as (vs & A & B & C).
    exists (VArr (repeat (repeat Un (N.to_nat (f_size f))) (N.to_nat (lf cs))) :: vs).
    cbn. rewrite B, C, len_repeat, N2Nat.id. unfold length_is. split; auto. split; [apply elems_repeat|auto].
Qed.
Lemma isize_pos t i : nonzst t -> iwt t i -> ilens t i = true -> 0 < isize t i.
Proof.
  intros Hz Hi Hl. destruct (proj1 iwt_value t i Hi Hl) as (v & Hv & E). unfold isize. rewrite <- E. apply Hz, Hv.
Qed.

(** ** elements in memory *)
Lemma total_app t xs ys : total t (xs ++ ys) = total t xs + total t ys.
Proof. induction xs as [|x xs IH]; cbn [app total]; [lia|]. rewrite IH. lia. Qed.
Lemma starts_app t xs ys o : starts t (xs ++ ys) o = starts t xs o ++ starts t ys (o + total t xs).
Proof.
  revert o; induction xs as [|x xs IH]; intros o; cbn [app starts total]; [f_equal; lia|].
  rewrite IH. do 2 f_equal. f_equal. lia.
Qed.
Lemma starts_lt t vs o x : wf_ty t -> nonzst t -> Forall (vok t) vs -> In x (starts t vs o) -> o <= x < o + total t vs.
Proof.
  intros Hwf Hz Hv. revert o; induction Hv as [|v vs Hv Hvs IH]; intros o H; cbn [starts total] in *; [contradiction|].
  pose proof (cells_pos t v Hwf (Hz _ Hv)). destruct H as [<-|H]; [lia|]. specialize (IH _ H). lia.
Qed.
Lemma elems_vok m t base vs : elems_at m t base vs -> Forall (vok t) vs.
Proof.
  revert base; induction vs as [|v vs IH]; intros base H; constructor; [apply H|]. eapply IH, H.
Qed.
Lemma elems_shift t m m' base base' vs :
  wf_ty t -> (forall i, i < total t vs * sp_align t -> m' (base' + i) = m (base + i)) ->
  elems_at m t base vs -> elems_at m' t base' vs.
Proof.
  intros Hwf. revert base base'; induction vs as [|v vs IH]; intros base base' Hm H; cbn [elems_at total] in *; [exact I|].
  destruct H as (H1 & H2 & H3). pose proof (cells_ge t v Hwf). split; auto. split.
  - eapply repr_shift; [exact Hwf|exact H1| |exact H2]. intros i Hi. apply Hm. nia.
  - eapply IH; [|exact H3]. intros i Hi. rewrite <- !N.add_assoc. apply Hm. nia.
Qed.
Lemma elems_app m t base xs ys :
  elems_at m t base (xs ++ ys) <-> elems_at m t base xs /\ elems_at m t (base + total t xs * sp_align t) ys.
Proof.
  revert base; induction xs as [|x xs IH]; intros base; cbn [app elems_at total].
  - replace (base + 0 * sp_align t) with base by lia. tauto.
  - rewrite IH. replace (base + cells t x * sp_align t + total t xs * sp_align t)
      with (base + (cells t x + total t xs) * sp_align t) by lia. tauto.
Qed.
Lemma total_len t vs : wf_ty t -> nonzst t -> Forall (vok t) vs -> len vs <= total t vs.
Proof.
  intros Hwf Hz H. induction H as [|v vs Hv Hvs IH]; cbn [total]; [unfold len; cbn; lia|].
  pose proof (cells_pos t v Hwf (Hz _ Hv)). rewrite len_cons. lia.
Qed.
Lemma icells_up t i : icells t i * sp_align t = up (isize t i) (sp_align t).
Proof. reflexivity. Qed.
Lemma icells_ge t i : wf_ty t -> isize t i <= icells t i * sp_align t.
Proof. intros Hwf. rewrite icells_up by auto. apply up_ge, sp_align_pos, Hwf. Qed.
Lemma icells_pos t i : wf_ty t -> 0 < isize t i -> 0 < icells t i.
Proof. intros Hwf H. pose proof (icells_ge t i Hwf). pose proof (sp_align_pos t Hwf). nia. Qed.

(** ** storage and initializer *)
Lemma seq_bytes_0 t chk s : s_cap s = 0 -> seq_bytes t chk s = 0.
Proof. unfold seq_bytes. intros ->. reflexivity. Qed.
Lemma seq_bytes_pos t chk s : 0 < s_cap s -> seq_bytes t chk s = storage_bytes t chk (s_cap s).
Proof. unfold seq_bytes. destruct (N.eqb_spec (s_cap s) 0); [lia|reflexivity]. Qed.
Lemma storage_pos t chk c : wf_ty t -> 0 < c -> 0 < storage_bytes t chk c.
Proof. intros Hwf Hc. pose proof (sp_align_pos t Hwf). unfold storage_bytes. nia. Qed.

Lemma boxes_apart :
  (forall t i bl bl' m D n b, isrc bl bl' m D n t i -> In b (iboxes t i) -> apart (b_base b) (b_size b) D n) /\
  (forall fs is_ bl bl' m D n b, isrc_flds bl bl' m D n fs is_ -> In b (iboxes_flds fs is_) -> apart (b_base b) (b_size b) D n).
Proof.
  apply vty_flds_ind.
  - intros f i bl bl' m D n b Hs Hb. destruct i; cbn [isrc iboxes] in *; try contradiction. destruct Hb as [<-|[]]. apply Hs.
  - intros f k i bl bl' m D n b Hs Hb. destruct i; cbn [isrc iboxes] in *; try contradiction. destruct Hb as [<-|[]]. apply Hs.
  - intros t IH i bl bl' m D n b Hs Hb. destruct i; cbn [isrc iboxes] in *; try contradiction; eauto. destruct Hb as [<-|[]]. apply Hs.
  - intros kd hs ha fs IH i bl bl' m D n b Hs Hb. destruct i; cbn [isrc iboxes] in *; try contradiction; eauto. destruct Hb as [<-|[]]. apply Hs.
  - intros is_ bl bl' m D n b Hs Hb. destruct is_; contradiction.
  - intros off f r IH is_ bl bl' m D n b Hs Hb. destruct is_; cbn [isrc_flds iboxes_flds] in *; [contradiction|eauto].
  - intros off f r IH is_ bl bl' m D n b Hs Hb. destruct is_; cbn [isrc_flds iboxes_flds] in *; [contradiction|eauto].
  - intros t IHt r IH is_ bl bl' m D n b Hs Hb. destruct is_; cbn [isrc_flds iboxes_flds] in *; [contradiction|].
    apply in_app_or in Hb. destruct Hs, Hb; eauto.
  - intros f lf r IH is_ bl bl' m D n b Hs Hb. destruct is_; cbn [isrc_flds iboxes_flds] in *; [contradiction|]. destruct Hs. eauto.
Qed.

Lemma box_not_dst w t i D n :
  wf_blocks (w_blocks w) -> init_ready w t i D n -> 0 < n -> ~ In D (ibases t i).
Proof.
  intros Hbl (A1 & A2 & A3) Hn Hb. unfold ibases in Hb. apply in_map_iff in Hb. destruct Hb as (b & Eb & Hb).
  pose proof (proj1 isrc_boxes_all t i _ _ _ _ _ _ A3 Hb) as Hbw.
  pose proof (proj1 boxes_apart t i _ _ _ _ _ b A3 Hb) as Ha.
  destruct Hbl as [Hbl _]. specialize (Hbl b Hbw). unfold apart in Ha. lia.
Qed.

Lemma seq_store_pre w t chk s vs : seq_at w t chk s vs -> store_pre (w_blocks w) t chk (s_ptr s) (s_cap s).
Proof. intros (_ & _ & _ & [[[H _] _]|(H1 & H2 & H3 & _)]); [left|right]; auto. Qed.

Lemma wf_blocks_without bl l : wf_blocks bl -> wf_blocks (without bl l).
Proof.
  intros [H1 H2]. split.
  - intros b Hb. apply H1. apply in_without in Hb. apply Hb.
  - clear H1. unfold without. induction H2 as [|x bl Hx H2 IH]; cbn [filter]; [constructor|].
    destruct (negb _); [|exact IH]. constructor; [|exact IH].
    rewrite Forall_forall in *. intros y Hy. apply filter_In in Hy. apply Hx, Hy.
Qed.
Lemma wf_rest bl ptr cap : wf_blocks bl -> wf_blocks (rest_blocks bl ptr cap).
Proof. intros H. unfold rest_blocks. destruct (cap =? 0); auto. apply wf_blocks_without, H. Qed.

(** Growth carries the initializer along. *)
Lemma grown_ready t chk s w w' p cap' i vs :
  wf_ty t -> wf_blocks (w_blocks w) -> seq_at w t chk s vs -> 0 < cap' ->
  grown t chk (s_ptr s) (s_cap s) p cap' w w' -> push_ready w t chk s i ->
  init_ready w' t i p (storage_bytes t chk cap').
Proof.
  intros Hwf Hbl Hat Hcap (G1 & G2 & G3 & G4 & _) Hr. unfold push_ready in Hr.
  pose proof (seq_store_pre _ _ _ _ _ Hat) as Hpre.
  assert (Hst : 0 < storage_bytes t chk cap') by (apply storage_pos; auto).
  destruct (fresh_apart _ _ _ _ G1) as (F0 & Fm & FW & Fb & Fa).
  pose proof Hr as (R1 & R2 & R3).
  assert (Hlive : forall bl a k, wf_blocks bl -> incl bl (w_blocks w) ->
     (0 < s_cap s -> In (seq_block t chk s) bl) ->
     live bl a k -> apart a k (s_ptr s) (seq_bytes t chk s) -> live (rest_blocks bl (s_ptr s) (s_cap s)) a k).
  { intros bl a k Hw Hi Hsb Hl Ha. unfold rest_blocks. destruct (N.eqb_spec (s_cap s) 0) as [E|E]; [exact Hl|].
    rewrite seq_bytes_pos in Ha by lia.
    apply (live_without bl (seq_block t chk s)); auto. apply Hsb. lia. }
  assert (Hbox : forall b, In b (iboxes t i) -> In b (rest_blocks (w_blocks w) (s_ptr s) (s_cap s))).
  { intros b Hb. pose proof (proj1 isrc_boxes_all t i _ _ _ _ _ _ R3 Hb) as Hbw.
    unfold rest_blocks. destruct (N.eqb_spec (s_cap s) 0) as [E|E]; [exact Hbw|]. apply in_without. split; [exact Hbw|].
    intros [E1|[]]. apply (box_not_dst w t i (s_ptr s) (seq_bytes t chk s)); auto.
    - rewrite seq_bytes_pos by lia. apply storage_pos; auto. lia.
    - rewrite E1. apply in_map. exact Hb. }
  assert (Hinw : 0 < s_cap s -> In (seq_block t chk s) (w_blocks w)).
  { intros Hc. destruct Hpre as [E|(_ & H & _)]; [lia|exact H]. }
  apply (ready_transport w w' t i (s_ptr s) (seq_bytes t chk s)); auto.
  - intros b Hb. rewrite G2. right. apply Hbox, Hb.
  - intros a k Hl Ha. rewrite G2. eapply live_incl.
    + apply (Hlive (without (w_blocks w) (ibases t i)) a k); auto.
      * apply wf_blocks_without, Hbl.
      * apply without_incl.
      * intros Hc. apply in_without. split; [auto|].
        intros Hb. apply (box_not_dst w t i (s_ptr s) (seq_bytes t chk s)); auto.
        rewrite seq_bytes_pos by lia. apply storage_pos; auto.
    + unfold rest_blocks. destruct (s_cap s =? 0).
      * intros b Hb. apply in_without in Hb. apply in_without. split; [right|]; apply Hb.
      * rewrite without_comm. intros b Hb. apply in_without in Hb. apply in_without. split; [right|]; apply Hb.
  - intros a k Hl Ha. pose proof (Hlive (w_blocks w) a k Hbl (incl_refl _) Hinw Hl Ha) as Hl'.
    pose proof (Fa _ _ Hl') as Hap. split; [|exact Hap]. intros x Hx. apply G4. unfold apart in Hap. lia.
Qed.

(** Growth keeps the contents. *)
Definition with_store (s : sq) (p cap : N) : sq := mkS p (s_len s) (s_occ s) cap.
Lemma grown_seq t chk s w w' p cap' vs :
  wf_ty t -> wf_blocks (w_blocks w) -> seq_at w t chk s vs -> 0 < cap' -> s_cap s <= cap' ->
  grown t chk (s_ptr s) (s_cap s) p cap' w w' ->
  seq_at w' t chk (with_store s p cap') vs /\ wf_blocks (w_blocks w') /\ untouched w w' (seq_base s) /\
  (forall old, chk = true -> bits_within w t s vs old -> nonzst t -> bits_within w' t (with_store s p cap') vs old).
Proof.
  intros Hwf Hbl (A1 & A2 & A3 & A4) Hcap Hle (G1 & G2 & G3 & G4 & G5 & G6 & _).
  assert (Hst : 0 < storage_bytes t chk cap') by (apply storage_pos; auto).
  destruct (fresh_apart _ _ _ _ G1) as (F0 & Fm & FW & Fb & Fa).
  pose proof (sp_align_pos t Hwf) as Hp.
  assert (Hbytes : forall j, chk = true -> j < bitmap_bytes (s_cap s) -> exists b, w_mem w (s_ptr s + s_cap s * sp_align t + j) = By b /\ b < 256).
  { intros j Hc Hj. destruct A4 as [[[E _] _]|(_ & _ & _ & _ & _ & H)]; [|apply H; auto].
    rewrite E in Hj. change (bitmap_bytes 0) with 0 in Hj. lia. }
  split; [|split; [|split]].
  - split; [exact A1|]. split; [exact A2|]. cbn [with_store s_occ s_cap s_ptr]. split; [lia|]. right.
    split; [exact Hcap|]. split; [rewrite G2; left; reflexivity|]. split; [exact G3|]. split; [exact Fm|]. split.
    + destruct A4 as [[_ ->]|(_ & _ & _ & _ & He & _)]; [exact I|].
      eapply elems_shift; [exact Hwf| |exact He]. intros i Hi. apply G5. nia.
    + intros Hc j Hj. rewrite (G6 Hc j Hj). destruct (N.ltb_spec j (bitmap_bytes (s_cap s))); [auto|]. exists 0. split; [reflexivity|lia].
  - rewrite G2. apply wf_blocks_cons; auto. apply wf_rest, Hbl.
  - intros b Hb Hn. assert (Hr : In b (rest_blocks (w_blocks w) (s_ptr s) (s_cap s))).
    { unfold rest_blocks, seq_base in *. destruct (s_cap s =? 0); [exact Hb|]. apply in_without. auto. }
    split; [rewrite G2; right; exact Hr|]. intros x Hx. apply G4. specialize (Fb b Hr). lia.
  - intros old Hc Hb Hz _ o Ho Hoc. cbn [with_store s_occ s_cap s_ptr] in *.
    unfold bit_at. cbn [with_store s_occ s_cap s_ptr].
    assert (Hj : o / 8 < bitmap_bytes cap').
    { pose proof (N.div_lt_upper_bound o 8 (bitmap_bytes cap') ltac:(lia) ltac:(lia)). lia. }
    rewrite (G6 Hc _ Hj). destruct (N.ltb_spec (o / 8) (bitmap_bytes (s_cap s))) as [Hl|Hl].
    + assert (Hpos : 0 < s_cap s).
      { destruct (N.eq_dec (s_cap s) 0) as [E|E]; [|lia]. rewrite E in Hl. change (bitmap_bytes 0) with 0 in Hl. lia. }
      assert (Ho' : o < 8 * bitmap_bytes (s_cap s)).
      { pose proof (N.div_mod o 8 ltac:(lia)). pose proof (N.mod_lt o 8 ltac:(lia)). lia. }
      exact (Hb Hpos o Ho' Hoc).
    + rewrite N.bits_0. split; [|discriminate]. intros Hin. exfalso.
      assert (Hv : Forall (vok t) vs).
      { destruct A4 as [[_ ->]|(_ & _ & _ & _ & He & _)]; [constructor|]. eapply elems_vok, He. }
      pose proof (starts_lt t vs 0 o Hwf Hz Hv Hin) as Hlt. destruct (bitmap_cover (s_cap s)) as [Hcov _].
      pose proof (N.div_mod o 8 ltac:(lia)). pose proof (N.mod_lt o 8 ltac:(lia)). lia.
Qed.

(** ** marking an offset *)
Lemma lor_byte b k : b < 256 -> k < 8 -> N.lor b (2 ^ k) < 256.
Proof.
  intros Hb Hk. change 256 with (2 ^ 8) in *.
  assert (H : N.lor b (2 ^ k) = 0 \/ N.log2 (N.lor b (2 ^ k)) < 8).
  { right. rewrite N.log2_lor. rewrite N.log2_pow2 by lia. apply N.max_lub_lt; [|exact Hk].
    destruct (N.eq_dec b 0) as [->|H0]; [cbn; lia|]. apply N.log2_lt_pow2; lia. }
  destruct H as [->|H]; [lia|].
  destruct (N.eq_dec (N.lor b (2 ^ k)) 0) as [->|H0]; [lia|]. apply N.log2_lt_pow2; lia.
Qed.
Lemma testbit_lor_pow b k j : N.testbit (N.lor b (2 ^ k)) j = (N.testbit b j || (j =? k))%bool.
Proof. rewrite N.lor_spec, N.pow2_bits_eqb. f_equal. apply N.eqb_sym. Qed.

Definition marked (t : vty) (s : sq) (w w' : world) : Prop :=
  w_blocks w' = w_blocks w /\ w_alloc w' = w_alloc w /\ w_tick w' = w_tick w /\ w_log w' = w_log w /\
  same_outside (w_mem w) (w_mem w') (s_ptr s + s_cap s * sp_align t + s_occ s / 8) 1.

Lemma in_storage_W w t chk s vs :
  wf_blocks (w_blocks w) -> seq_at w t chk s vs -> 0 < s_cap s ->
  s_ptr s <> 0 /\ s_ptr s + storage_bytes t chk (s_cap s) < W.
Proof.
  intros Hbl (_ & _ & _ & [[E _]|(_ & Hin & _)]) Hc; [lia|]. destruct Hbl as [Hbl _]. specialize (Hbl _ Hin). cbn in Hbl. tauto.
Qed.

Lemma mark_ok t chk s w vs :
  wf_ty t -> wf_blocks (w_blocks w) -> seq_at w t chk s vs -> s_occ s < s_cap s ->
  exists w', mark_offset_valid chk (s_ptr s) (s_cap s) (s_occ s) (valign t) w = Ok tt w' /\ marked t s w w' /\
    seq_at w' t chk s vs /\
    (forall old, chk = true -> bits_within w t s vs old -> bits_within w' t s vs old /\ bit_at w' t s (s_occ s) = true) /\
    (chk = false -> w' = w) /\
    (chk = true -> forall o, bit_at w' t s o = (bit_at w t s o || (o =? s_occ s))%bool).
Proof.
  intros Hwf Hbl Hat Hocc. pose proof (valign_sp t Hwf) as Ev. rewrite Ev.
  destruct chk.
  2:{ exists w. cbn. split; [reflexivity|]. split; [repeat split; intros x Hx; reflexivity|]. split; [exact Hat|]. split; [discriminate|split; [auto|discriminate]]. }
  assert (Hc : 0 < s_cap s) by lia. destruct (in_storage_W _ _ _ _ _ Hbl Hat Hc) as [P0 PW].
  pose proof (sp_align_pos t Hwf) as Hp.
  assert (Hj : s_occ s / 8 < bitmap_bytes (s_cap s)).
  { unfold bitmap_bytes. pose proof (N.div_mod (s_occ s) 8 ltac:(lia)). pose proof (N.mod_lt (s_occ s) 8 ltac:(lia)).
    pose proof (N.div_mod (s_cap s + 7) 8 ltac:(lia)). pose proof (N.mod_lt (s_cap s + 7) 8 ltac:(lia)). lia. }
  assert (Hsb : storage_bytes t true (s_cap s) = s_cap s * sp_align t + bitmap_bytes (s_cap s)) by reflexivity.
  pose proof Hat as (A1 & A2 & A3 & [[E _]|(_ & Hin & Hs & Hm & He & Hb)]); [lia|].
  destruct (Hb eq_refl _ Hj) as (b & Eb & Hb256).
  unfold mark_offset_valid, pmul. destruct (N.ltb_spec (s_cap s * sp_align t) W); [|lia].
  unfold bind at 1, ret at 1. unfold padd. destruct (N.ltb_spec (s_cap s * sp_align t + s_occ s / 8) W); [|lia].
  unfold bind at 1, ret at 1.
  assert (Ew : wrapping_add (s_ptr s) (s_cap s * sp_align t + s_occ s / 8) = s_ptr s + s_cap s * sp_align t + s_occ s / 8).
  { unfold wrapping_add. rewrite N.mod_small by lia. lia. }
  rewrite Ew. set (q := s_ptr s + s_cap s * sp_align t + s_occ s / 8) in *.
  assert (Hl : live (w_blocks w) q 1).
  { right. exists (seq_block t true s). split; [exact Hin|]. cbn [seq_block b_base b_size]. unfold q. lia. }
  assert (Hq : q <> 0) by (unfold q; lia).
  step (load_ok w q 1 1 Hq (N.mod_1_r _) Hl). change (rd (w_mem w) q 1) with [w_mem w q].
  rewrite Eb.
  rewrite (store_ok w q 1 [By (N.lor b (2 ^ (s_occ s mod 8)))] Hq (N.mod_1_r _) Hl).
  assert (Hso : same_outside (w_mem w) (wr (w_mem w) q [By (N.lor b (2 ^ (s_occ s mod 8)))]) q 1).
  { intros x Hx. unfold wr. change (len [By (N.lor b (2 ^ (s_occ s mod 8)))]) with 1.
    destruct (N.leb_spec q x), (N.ltb_spec x (q + 1)); cbn [andb]; auto; lia. }
  assert (Hnew : wr (w_mem w) q [By (N.lor b (2 ^ (s_occ s mod 8)))] q = By (N.lor b (2 ^ (s_occ s mod 8)))).
  { unfold wr. change (len [By (N.lor b (2 ^ (s_occ s mod 8)))]) with 1.
    destruct (N.leb_spec q q), (N.ltb_spec q (q + 1)); try lia. cbn [andb]. replace (N.to_nat (q - q)) with 0%nat by lia. reflexivity. }
  assert (Hm8 : s_occ s mod 8 < 8) by (apply N.mod_lt; lia).
  assert (Hbit : forall o, bit_at (set_mem w (wr (w_mem w) q [By (N.lor b (2 ^ (s_occ s mod 8)))])) t s o =
    (bit_at w t s o || (o =? s_occ s))%bool).
  { intros o. unfold bit_at. cbn [set_mem w_mem]. destruct (N.eq_dec (o / 8) (s_occ s / 8)) as [Eo|Hne].
    - rewrite Eo. fold q. rewrite Hnew, Eb, testbit_lor_pow. f_equal.
      destruct (N.eqb_spec (o mod 8) (s_occ s mod 8)), (N.eqb_spec o (s_occ s)); auto; exfalso.
      + pose proof (N.div_mod o 8 ltac:(lia)). pose proof (N.div_mod (s_occ s) 8 ltac:(lia)). lia.
      + subst o. auto.
    - rewrite Hso by (unfold q; lia). destruct (N.eqb_spec o (s_occ s)) as [->|]; [contradiction|]. now rewrite orb_false_r. }
  eexists. split; [reflexivity|]. split; [|split; [|split; [|split; [discriminate|]]]].
  - unfold marked, set_mem. cbn. repeat split; auto.
  - split; [exact A1|]. split; [exact A2|]. split; [exact A3|]. right. cbn [set_mem w_mem w_blocks]. repeat split; auto.
    + eapply elems_shift; [exact Hwf| |exact He]. intros i Hi. apply Hso. unfold q. nia.
    + intros _ j Hjb. destruct (N.eq_dec j (s_occ s / 8)) as [->|Hne].
      * fold q. rewrite Hnew. eexists. split; [reflexivity|]. apply lor_byte; auto.
      * rewrite Hso by (unfold q; lia). auto.
  - intros old _ Hex.
    split; [|rewrite Hbit, N.eqb_refl; apply orb_true_r].
    intros _ o Ho Hoc. rewrite Hbit. destruct (N.eqb_spec o (s_occ s)); [contradiction|]. rewrite orb_false_r. apply Hex; auto.
  - intros _. exact Hbit.
Qed.

(** ** push *)
Lemma lft_ok {A} (m : M world A) w s a w' : m w = Ok a w' -> lft m (w, s) = Ok a (w', s).
Proof. intros H. unfold lft. now rewrite H. Qed.
Lemma lft_panic {A} (m : M world A) w s w' : m w = Panic w' -> @lft A m (w, s) = Panic (w', s).
Proof. intros H. unfold lft. now rewrite H. Qed.

(** The log entry of a growth. *)
Definition grow_event (t : vty) (chk : bool) (s : sq) (p cap' : N) : event :=
  if s_cap s =? 0 then EAlloc p (storage_bytes t chk cap') (sp_align t)
  else ERealloc (s_ptr s) (storage_bytes t chk (s_cap s)) (sp_align t) p (storage_bytes t chk cap').

(** World and sequence when the new element is about to be built. *)
Definition room_made (t : vty) (chk : bool) (w : world) (s : sq) (need : N) (w1 : world) (s1 : sq) : Prop :=
  (need <= s_cap s /\ w1 = w /\ s1 = s) \/
  (s_cap s < need /\ s1 = with_store s (s_ptr s1) (new_cap t need (s_cap s)) /\
   grown t chk (s_ptr s) (s_cap s) (s_ptr s1) (s_cap s1) w w1).

(** A push that stops before there is room: a length expression panicked, or the storage did not grow. *)
Definition push_refused (t : vty) (chk : bool) (s : sq) (i : init) (w w1 : world) : Prop :=
  (ilens t i = false /\ w1 = w) \/
  (s_cap s < s_occ s + icells t i /\
   refused t chk (s_ptr s) (s_cap s) (new_cap t (s_occ s + icells t i) (s_cap s)) w w1).
Lemma push_refused_same t chk s i w w1 : push_refused t chk s i w w1 ->
  w_mem w1 = w_mem w /\ w_blocks w1 = w_blocks w /\ w_log w1 = w_log w.
Proof. intros [[_ ->]|[_ [[-> _]|[-> _]]]]; auto. Qed.

Definition push_spec (t : vty) (chk : bool) (w : world) (s : sq) (i : init) (vs : list vval)
    (r : res (world * sq) unit) : Prop :=
  let need := s_occ s + icells t i in
  (exists w1 w', r = Panic (w', s) /\ push_refused t chk s i w w1 /\
     upd w1 w' 0 0 (ibases t i) (idrop t i)) \/
  (ilens t i = true /\ exists w1 s1 w2, room_made t chk w s need w1 s1 /\ need <= s_cap s1 /\
     wf_blocks (w_blocks w1) /\ seq_at w1 t chk s1 vs /\ init_ready w1 t i (s_ptr s1) (storage_bytes t chk (s_cap s1)) /\
     marked t s1 w1 w2 /\ ((chk = false -> w2 = w1) /\
     (chk = true -> forall o, bit_at w2 t s1 o = (bit_at w1 t s1 o || (o =? s_occ s1))%bool)) /\
     (forall old, chk = true -> bits_within w t s vs old -> bits_within w2 t s1 vs old /\ bit_at w2 t s1 (s_occ s1) = true) /\
     seq_at w2 t chk s1 vs /\
     match snd (irun t i) with
     | Some v => exists w', r = Ok tt (w', mkS (s_ptr s1) (s_len s1 + 1) need (s_cap s1)) /\
         upd w2 w' (s_ptr s1 + s_occ s1 * sp_align t) (isize t i) (ibases t i) (fst (irun t i)) /\
         repr (w_mem w') t (s_ptr s1 + s_occ s1 * sp_align t) v
     | None => exists w', r = Panic (w', s1) /\
         upd w2 w' (s_ptr s1 + s_occ s1 * sp_align t) (isize t i) (ibases t i) (fst (irun t i))
     end).

Lemma new_cap_ge t need cap : need <= new_cap t need cap /\ cap * 2 <= new_cap t need cap.
Proof. unfold new_cap. lia. Qed.
Lemma refused_ready t chk s cap' w w1 i :
  wf_ty t -> push_ready w t chk s i -> refused t chk (s_ptr s) (s_cap s) cap' w w1 -> usable w1 t i.
Proof.
  intros Hwf Hr H. apply ready_usable in Hr; auto. destruct H as [[-> _]|[-> _]]; [exact Hr|].
  apply (ready_mem w); auto. intros x Hx. reflexivity.
Qed.
Lemma seq_cap_bound w t chk s vs :
  wf_ty t -> seq_at w t chk s vs -> s_cap s * sp_align t + (sp_align t - 1) <= ISIZE_MAX.
Proof.
  intros Hwf (_ & _ & _ & [[[E _] _]|(_ & _ & H & _)]).
  - rewrite E. pose proof (pow2_le _ (sp_align_pow2 t Hwf)) as Hle. rewrite ISIZE_eq. change (2^29) with 536870912 in Hle. lia.
  - unfold storage_bytes in H. lia.
Qed.

Lemma seq_push_cases t chk w s i vs :
  wf_ty t -> nonzst t -> wf_blocks (w_blocks w) -> seq_at w t chk s vs -> push_ready w t chk s i ->
  push_spec t chk w s i vs (seq_push t chk i (w, s)).
Proof.
  intros Hwf Hz Hbl Hat Hr. pose proof Hr as (Hi & _). destruct (ilens t i) eqn:Hzl.
  2:{ unfold push_spec. left. destruct (usable_drop t w i Hwf (ready_usable _ _ _ _ _ Hwf Hr)) as (w' & Ed & U). exists w, w'.
      split; [|split; [left; auto|exact U]]. unfold seq_push.
      destruct (init_layout_bad t w i _ _ Hwf Hr Hzl) as [El|El].
      - rewrite (bind_ok _ _ _ _ _ (lft_ok _ _ s _ _ (on_unwind_ok _ (drop_init t i) _ _ _ El))).
        now rewrite (bind_ok _ _ _ _ _ (lft_ok _ _ s _ _ Ed)).
      - apply bind_panic, lft_panic. eapply on_unwind_panic; eauto. }
  pose proof (isize_pos t i Hz Hi Hzl) as Hsz. pose proof (icells_ge t i Hwf) as Hcg. pose proof (icells_pos t i Hwf Hsz) as Hcp.
  pose proof (sp_align_pos t Hwf) as Hp. pose proof (seq_cap_bound _ _ _ _ _ Hwf Hat) as Hcb.
  pose proof Hat as (_ & Hocc & Hocap & _).
  assert (Hcu : icells t i * sp_align t < isize t i + sp_align t).
  { rewrite icells_up. apply up_lt. exact Hp. }
  unfold push_spec. set (need := s_occ s + icells t i).
  (* the failure branch *)
  assert (Hfail : forall w1, s_cap s < need -> refused t chk (s_ptr s) (s_cap s) (new_cap t need (s_cap s)) w w1 ->
    exists w', drop_init t i w1 = Ok tt w' /\ upd w1 w' 0 0 (ibases t i) (idrop t i)).
  { intros w1 _ Href. apply usable_drop; auto. eapply refused_ready; eauto. }
  assert (Hbig : W <= isize t i + (sp_align t - 1) \/ W <= need -> s_cap s < need /\
     refused t chk (s_ptr s) (s_cap s) (new_cap t need (s_cap s)) w w).
  { intros H. rewrite ISIZE_eq in Hcb. rewrite W_eq in H. split.
    - unfold need in *. nia.
    - left. split; [reflexivity|]. pose proof (new_cap_ge t need (s_cap s)) as [H1 _].
      rewrite ISIZE_eq. unfold storage_bytes. unfold need in *. nia. }
  assert (HbigP : (W <= isize t i + (sp_align t - 1) \/ W <= need) -> exists w',
     (lft (drop_init t i);;; panic) (w, s) = @Panic (world * sq) unit (w', s) /\ upd w w' 0 0 (ibases t i) (idrop t i)).
  { intros H. destruct (Hbig H) as [H1 H2]. destruct (Hfail w H1 H2) as (w' & E & U). exists w'. split; [|exact U].
    now rewrite (bind_ok _ _ _ _ _ (lft_ok _ _ s _ _ E)). }
  remember (seq_push t chk i (w, s)) as r eqn:Er.
  unfold seq_push in Er. pose proof (init_layout_ok t w i _ _ Hwf Hr Hzl) as El.
  rewrite (bind_ok _ _ _ _ _ (lft_ok _ _ s _ _ (on_unwind_ok _ (drop_init t i) _ _ _ El))) in Er.
  destruct (N.ltb_spec (isize t i) W) as [HiW|HiW].
  2:{ left. assert (Hx : W <= isize t i + (sp_align t - 1) \/ W <= need) by lia.
      destruct (Hbig Hx) as [H1 H2]. destruct (HbigP Hx) as (w' & E & U). exists w, w'. split; [rewrite Er; exact E|]. split; [right; auto|exact U]. }
  rewrite (lay_size_ishape t i Hi), (valign_sp t Hwf) in Er. unfold checked_add in Er.
  destruct (N.ltb_spec (isize t i + (sp_align t - 1)) W) as [HiW2|HiW2].
  2:{ left. assert (Hx : W <= isize t i + (sp_align t - 1) \/ W <= need) by lia.
      destruct (Hbig Hx) as [H1 H2]. destruct (HbigP Hx) as (w' & E & U). exists w, w'. split; [rewrite Er; exact E|]. split; [right; auto|exact U]. }
  fold (icells t i) in Er. unfold bind at 1, get_sq at 1 in Er. fold need in Er.
  destruct (N.ltb_spec need W) as [Hnw|Hnw].
  2:{ left. assert (Hx : W <= isize t i + (sp_align t - 1) \/ W <= need) by lia.
      destruct (Hbig Hx) as [H1 H2]. destruct (HbigP Hx) as (w' & E & U). exists w, w'. split; [rewrite Er; exact E|]. split; [right; auto|exact U]. }
  (* after making room *)
  assert (Hrest : forall w1 s1, room_made t chk w s need w1 s1 -> need <= s_cap s1 -> s_occ s1 = s_occ s ->
     wf_blocks (w_blocks w1) -> seq_at w1 t chk s1 vs -> init_ready w1 t i (s_ptr s1) (storage_bytes t chk (s_cap s1)) ->
     (forall old, chk = true -> bits_within w t s vs old -> bits_within w1 t s1 vs old) ->
     exists w2, marked t s1 w1 w2 /\ ((chk = false -> w2 = w1) /\
     (chk = true -> forall o, bit_at w2 t s1 o = (bit_at w1 t s1 o || (o =? s_occ s1))%bool)) /\
     (forall old, chk = true -> bits_within w t s vs old -> bits_within w2 t s1 vs old /\ bit_at w2 t s1 (s_occ s1) = true) /\
     seq_at w2 t chk s1 vs /\
     let r1 := (s2 <- get_sq;;
       lft (mark_offset_valid chk (s_ptr s2) (s_cap s2) (s_occ s2) (sp_align t));;;
       y <- pmul (s_occ s2) (sp_align t);;
       lft (initialize t i (wrapping_add (s_ptr s2) y) (sp_lay t (ishape t i)));;;
       n <- padd (s_len s2) 1;; set_sq (mkS (s_ptr s2) n need (s_cap s2))) (w1, s1) in
     match snd (irun t i) with
     | Some v => exists w', r1 = Ok tt (w', mkS (s_ptr s1) (s_len s1 + 1) need (s_cap s1)) /\
         upd w2 w' (s_ptr s1 + s_occ s1 * sp_align t) (isize t i) (ibases t i) (fst (irun t i)) /\
         repr (w_mem w') t (s_ptr s1 + s_occ s1 * sp_align t) v
     | None => exists w', r1 = Panic (w', s1) /\
         upd w2 w' (s_ptr s1 + s_occ s1 * sp_align t) (isize t i) (ibases t i) (fst (irun t i))
     end).
  { intros w1 s1 _ Hneed Eocc Hbl1 Hat1 Hr1 Hbits.
    assert (Hoc : s_occ s1 < s_cap s1) by (rewrite Eocc; unfold need in Hneed; lia).
    destruct (mark_ok t chk s1 w1 vs Hwf Hbl1 Hat1 Hoc) as (w2 & E2 & Hmk & Hat2 & Hb2 & Hf2 & Hbx2).
    exists w2. split; [exact Hmk|]. split; [split; [exact Hf2|exact Hbx2]|]. split; [intros old Hc Hb; apply Hb2; auto|]. split; [exact Hat2|].
    rewrite (valign_sp t Hwf) in E2.
    assert (Hc1 : 0 < s_cap s1) by lia.
    destruct (in_storage_W _ _ _ _ _ Hbl1 Hat1 Hc1) as [P0 PW].
    assert (Hend : s_occ s1 * sp_align t + isize t i <= s_cap s1 * sp_align t).
    { rewrite Eocc. unfold need in Hneed. nia. }
    assert (Hsb : s_cap s1 * sp_align t <= storage_bytes t chk (s_cap s1)) by (unfold storage_bytes; lia).
    assert (Ew : wrapping_add (s_ptr s1) (s_occ s1 * sp_align t) = s_ptr s1 + s_occ s1 * sp_align t).
    { unfold wrapping_add. rewrite N.mod_small by lia. reflexivity. }
    intros r1.
    assert (Er1 : r1 = (lft (initialize t i (s_ptr s1 + s_occ s1 * sp_align t) (sp_lay t (ishape t i)));;;
       n <- padd (s_len s1) 1;; set_sq (mkS (s_ptr s1) n need (s_cap s1))) (w2, s1)).
    { unfold r1. unfold bind at 1, get_sq at 1. rewrite (bind_ok _ _ _ _ _ (lft_ok _ _ s1 _ _ E2)).
      unfold pmul. destruct (N.ltb_spec (s_occ s1 * sp_align t) W); [|lia].
      unfold bind at 1, ret at 1. rewrite Ew. reflexivity. }
    rewrite Er1. clearbody r1. clear Er1 r1. set (dst := s_ptr s1 + s_occ s1 * sp_align t).
    destruct Hmk as (M1 & M2 & M3 & M4 & M5).
    pose proof Hat1 as (L1 & L2 & L3 & [[E _]|(_ & Hin & Hss & Hmod & He & _)]); [lia|].
    assert (Hr2 : init_ready w2 t i dst (isize t i)).
    { apply (ready_narrow w2 t i (s_ptr s1) (storage_bytes t chk (s_cap s1))); auto.
      - apply (ready_mem w1); auto. destruct chk; [|rewrite Hf2 by reflexivity; intros x Hx; reflexivity].
        intros x Hx. apply M5. change (storage_bytes t true (s_cap s1)) with (s_cap s1 * sp_align t + bitmap_bytes (s_cap s1)) in Hx.
        assert (s_occ s1 / 8 < bitmap_bytes (s_cap s1)).
        { unfold bitmap_bytes. pose proof (N.div_mod (s_occ s1) 8 ltac:(lia)). pose proof (N.mod_lt (s_occ s1) 8 ltac:(lia)).
          pose proof (N.div_mod (s_cap s1 + 7) 8 ltac:(lia)). pose proof (N.mod_lt (s_cap s1 + 7) 8 ltac:(lia)). lia. }
        lia.
      - right. unfold dst. lia. }
    assert (Hpl : place_ok (without (w_blocks w2) (ibases t i)) t dst (isize t i)).
    { split; [unfold dst; lia|]. split; [|split; [unfold dst; lia|]].
      - unfold dst. rewrite N.add_mod by lia. rewrite Hmod, N.mod_mul by lia. reflexivity.
      - right. exists (seq_block t chk s1). split.
        + rewrite M1. apply in_without. split; [exact Hin|]. cbn [seq_block b_base].
          apply (box_not_dst w1 t i (s_ptr s1) (storage_bytes t chk (s_cap s1))); auto. apply storage_pos; auto.
        + cbn [seq_block b_base b_size]. unfold dst. lia. }
    pose proof (initialize_ok t w2 i dst Hwf Hr2 Hpl Hzl) as B. unfold build_res in B.
    assert (Hlen : s_len s1 + 1 < W).
    { rewrite L1. pose proof (total_len t vs Hwf Hz (elems_vok _ _ _ _ He)) as Htl. rewrite <- L2 in Htl. nia. }
    destruct (snd (irun t i)) as [v|].
    - destruct B as (w' & E1 & U1 & Rp). exists w'. split; [|auto].
      rewrite (bind_ok _ _ _ _ _ (lft_ok _ _ s1 _ _ E1)). unfold padd.
      destruct (N.ltb_spec (s_len s1 + 1) W); [|lia]. reflexivity.
    - destruct B as (w' & E1 & U1). exists w'. split; [|auto].
      rewrite (bind_panic _ _ _ _ (lft_panic _ _ s1 _ E1)). reflexivity. }
  destruct (N.ltb_spec (s_cap s) need) as [Hgrow|Hgrow].
  - (* growth *)
    destruct (try_realloc_cases t chk w (s_ptr s) (s_cap s) need Hwf Hbl (seq_store_pre _ _ _ _ _ Hat)) as (q & w1 & E & Hc).
    rewrite (valign_sp t Hwf) in E. destruct q as [[p c]|].
    + destruct Hc as [-> Hg]. right. split; [exact Hzl|]. set (cap' := new_cap t need (s_cap s)) in *.
      assert (E1 : lft (on_unwind (must_realloc chk (s_ptr s) (s_cap s) need (sp_align t)) (drop_init t i)) (w, s) =
                   Ok (p, cap') (w1, s)).
      { apply lft_ok. unfold on_unwind, must_realloc. rewrite (bind_ok _ _ _ _ _ E). reflexivity. }
      pose proof (new_cap_ge t need (s_cap s)) as [Hge1 Hge2]. fold cap' in Hge1, Hge2.
      assert (Hc0 : 0 < cap') by lia.
      destruct (grown_seq t chk s w w1 p cap' vs Hwf Hbl Hat Hc0 ltac:(lia) Hg) as (S1 & S2 & S3 & S4).
      pose proof (grown_ready t chk s w w1 p cap' i vs Hwf Hbl Hat Hc0 Hg Hr) as R1.
      assert (Hroom : room_made t chk w s need w1 (with_store s p cap')).
      { right. split; [exact Hgrow|]. split; [reflexivity|exact Hg]. }
      destruct (Hrest w1 (with_store s p cap') Hroom Hge1 eq_refl S2 S1 R1 ltac:(auto)) as (w2 & M1 & M2 & M3 & M4 & M5).
      exists w1, (with_store s p cap'), w2.
      split; [exact Hroom|]. split; [exact Hge1|]. split; [exact S2|]. split; [exact S1|]. split; [exact R1|]. split; [exact M1|].
      split; [exact M2|]. split; [exact M3|]. split; [exact M4|].
      assert (EQ : forall k : unit -> SM unit,
        bind (r <- lft (on_unwind (must_realloc chk (s_ptr s) (s_cap s) need (sp_align t)) (drop_init t i));;
              set_sq (mkS (fst r) (s_len s) (s_occ s) (snd r))) k (w, s) = k tt (w1, with_store s p cap')).
      { intros k. unfold bind at 1. rewrite (bind_ok _ _ _ _ _ E1). reflexivity. }
      rewrite EQ in Er. rewrite Er. exact M5.
    + left. destruct (Hfail w1 Hgrow Hc) as (w' & Ed & U). exists w1, w'. split; [|split; [right; auto|exact U]].
      assert (E1 : lft (on_unwind (must_realloc chk (s_ptr s) (s_cap s) need (sp_align t)) (drop_init t i)) (w, s) = Panic (w', s)).
      { apply lft_panic. unfold on_unwind, must_realloc. rewrite (bind_ok _ _ _ _ _ E). cbn [panic]. unfold panic. rewrite Ed. reflexivity. }
      rewrite (bind_panic _ _ _ _ (bind_panic _ _ _ _ E1)) in Er. exact Er.
  - right. split; [exact Hzl|]. exists w, s.
    assert (Hc0 : 0 < s_cap s) by (unfold need in Hgrow; lia).
    assert (R1 : init_ready w t i (s_ptr s) (storage_bytes t chk (s_cap s))).
    { unfold push_ready in Hr. rewrite seq_bytes_pos in Hr by auto. exact Hr. }
    assert (Hroom : room_made t chk w s need w s) by (left; auto).
    destruct (Hrest w s Hroom Hgrow eq_refl Hbl Hat R1 ltac:(auto)) as (w2 & M1 & M2 & M3 & M4 & M5).
    exists w2. split; [exact Hroom|]. split; [exact Hgrow|]. split; [exact Hbl|]. split; [exact Hat|]. split; [exact R1|].
    split; [exact M1|]. split; [exact M2|]. split; [exact M3|]. split; [exact M4|].
    unfold bind at 1, ret at 1 in Er. rewrite Er. exact M5.
Qed.

Lemma upd_wf w w' a n b e : wf_blocks (w_blocks w) -> upd w w' a n b e -> wf_blocks (w_blocks w').
Proof. intros H U. rewrite (upd_blocks _ _ _ _ _ _ U). apply wf_blocks_without, H. Qed.

(** The sequence is intact after an update that writes only to its unused part. *)
Lemma seq_at_upd t chk s w w' bs e vs i :
  wf_ty t -> wf_blocks (w_blocks w) -> seq_at w t chk s vs -> init_ready w t i (s_ptr s) (storage_bytes t chk (s_cap s)) ->
  s_occ s + icells t i <= s_cap s -> 0 < s_cap s ->
  upd w w' (s_ptr s + s_occ s * sp_align t) (isize t i) bs e -> bs = ibases t i ->
  seq_at w' t chk s vs /\ In (seq_block t chk s) (w_blocks w') /\
  (chk = true -> forall j, w_mem w' (s_ptr s + s_cap s * sp_align t + j) = w_mem w (s_ptr s + s_cap s * sp_align t + j)) /\
  untouched w w' (s_ptr s :: ibases t i).
Proof.
  intros Hwf Hbl (A1 & A2 & A3 & [[E _]|(_ & Hin & Hs & Hm & He & Hb)]) Hr Hroom Hc U ->; [lia|].
  pose proof (icells_ge t i Hwf) as Hcg. pose proof (sp_align_pos t Hwf) as Hp.
  assert (Hend : s_occ s * sp_align t + isize t i <= s_cap s * sp_align t) by nia.
  assert (Hin' : In (seq_block t chk s) (w_blocks w')).
  { rewrite (upd_blocks _ _ _ _ _ _ U). apply in_without. split; [exact Hin|].
    apply (box_not_dst w t i (s_ptr s) (storage_bytes t chk (s_cap s))); auto. apply storage_pos; auto. }
  assert (Hbm : forall j, w_mem w' (s_ptr s + s_cap s * sp_align t + j) = w_mem w (s_ptr s + s_cap s * sp_align t + j)).
  { intros j. apply (upd_mem _ _ _ _ _ _ U). lia. }
  split; [|split; [exact Hin'|split; [auto|]]].
  - split; [exact A1|]. split; [exact A2|]. split; [exact A3|]. right. repeat split; auto.
    + eapply elems_shift; [exact Hwf| |exact He]. intros k Hk. apply (upd_mem _ _ _ _ _ _ U). rewrite <- A2 in Hk. lia.
    + intros Hch j Hj. rewrite Hbm. auto.
  - eapply (untouched_upd w w'); [exact Hbl|exact U|exact Hin| | | |]; cbn [seq_block b_base b_size].
    + lia.
    + unfold storage_bytes. lia.
    + apply incl_tl, incl_refl.
    + left. reflexivity.
Qed.

Lemma bits_mem w w' t s vs old :
  (forall j, w_mem w' (s_ptr s + s_cap s * sp_align t + j) = w_mem w (s_ptr s + s_cap s * sp_align t + j)) ->
  bits_within w t s vs old -> bits_within w' t s vs old.
Proof.
  intros Hm Hb Hc o Ho Hoc. unfold bit_at. rewrite Hm. apply (Hb Hc o Ho Hoc).
Qed.

Lemma marked_untouched t chk s w w' vs :
  wf_ty t -> wf_blocks (w_blocks w) -> seq_at w t chk s vs -> s_occ s < s_cap s ->
  (chk = false -> w' = w) -> marked t s w w' -> untouched w w' [s_ptr s].
Proof.
  intros Hwf Hbl Hat Hoc Hf Hm. destruct chk; [|rewrite Hf by reflexivity; apply untouched_refl].
  destruct Hm as (M1 & M2 & M3 & M4 & M5). intros b Hb Hn. split; [now rewrite M1|].
  destruct Hat as (_ & _ & _ & [[E _]|(_ & Hin & _)]); [lia|].
  assert (Hd : blocks_apart (seq_block t true s) b).
  { apply (wf_blocks_disj (w_blocks w)); auto. intros E. apply Hn. left. exact E. }
  intros x Hx. apply M5. unfold blocks_apart in Hd. cbn [seq_block b_base b_size] in Hd.
  change (storage_bytes t true (s_cap s)) with (s_cap s * sp_align t + bitmap_bytes (s_cap s)) in Hd.
  assert (s_occ s / 8 < bitmap_bytes (s_cap s)).
  { unfold bitmap_bytes. pose proof (N.div_mod (s_occ s) 8 ltac:(lia)). pose proof (N.mod_lt (s_occ s) 8 ltac:(lia)).
    pose proof (N.div_mod (s_cap s + 7) 8 ltac:(lia)). pose proof (N.mod_lt (s_cap s + 7) 8 ltac:(lia)). lia. }
  lia.
Qed.

(** The state after a push. *)
Definition push_inv (t : vty) (chk : bool) (w : world) (s : sq) (i : init) (vs0 vs : list vval) (w' : world) (s' : sq) : Prop :=
  seq_at w' t chk s' vs /\ wf_blocks (w_blocks w') /\ untouched w w' (seq_base s ++ ibases t i) /\
  (forall old, chk = true -> bits_within w t s vs0 old -> bits_within w' t s' vs old) /\
  (* the storage is the old one or a fresh block *)
  (forall b, In b (w_blocks w) -> b_base b = s_ptr s' -> 0 < s_cap s' -> In (b_base b) (seq_base s)) /\
  (* no other block is left behind *)
  (forall b, In b (w_blocks w') ->
     (0 < s_cap s' /\ b = seq_block t chk s') \/ (In b (w_blocks w) /\ ~ In (b_base b) (seq_base s ++ ibases t i))).

Lemma old_blocks t chk w s vs b :
  wf_blocks (w_blocks w) -> seq_at w t chk s vs -> In b (w_blocks w) ->
  (0 < s_cap s /\ b = seq_block t chk s) \/ ~ In (b_base b) (seq_base s).
Proof.
  intros Hbl (_ & _ & _ & A4) Hb. unfold seq_base. destruct A4 as [[[E _] _]|(B1 & B2 & _)].
  - rewrite E. right. intros [].
  - destruct (N.eqb_spec (s_cap s) 0); [lia|]. destruct (N.eq_dec (b_base b) (s_ptr s)) as [E|E].
    + left. split; [exact B1|]. apply (wf_same_base (w_blocks w)); auto.
    + right. intros [H|[]]. auto.
Qed.
Lemma room_blocks t chk w s need w1 s1 vs b :
  wf_ty t -> wf_blocks (w_blocks w) -> seq_at w t chk s vs -> room_made t chk w s need w1 s1 -> 0 < s_cap s1 ->
  In b (w_blocks w1) ->
  (0 < s_cap s1 /\ b = seq_block t chk s1) \/ (In b (w_blocks w) /\ ~ In (b_base b) (seq_base s)).
Proof.
  intros Hwf Hbl Hat Hroom Hc Hb. destruct Hroom as [(H & -> & ->)|(Hg & Es & G)].
  - destruct (old_blocks t chk w s vs b Hbl Hat Hb); [left|right]; auto.
  - destruct G as (G1 & G2 & _). rewrite G2 in Hb. destruct Hb as [<-|Hb]; [left; auto|right].
    unfold rest_blocks, seq_base in *. destruct (s_cap s =? 0); [split; auto|]. apply in_without in Hb. exact Hb.
Qed.

Lemma room_untouched t chk w s need w1 s1 vs :
  wf_ty t -> wf_blocks (w_blocks w) -> seq_at w t chk s vs -> room_made t chk w s need w1 s1 -> untouched w w1 (seq_base s).
Proof.
  intros Hwf Hbl Hat [(_ & -> & ->)|(Hg & Es & G)]; [apply untouched_refl|].
  pose proof (new_cap_ge t need (s_cap s)) as [H1 H2].
  assert (Ec : s_cap s1 = new_cap t need (s_cap s)) by (rewrite Es; reflexivity).
  eapply (grown_seq t chk s w w1 (s_ptr s1) (s_cap s1) vs); eauto; lia.
Qed.
(** The new storage is either the old one or fresh. *)
Lemma room_base t chk w s need w1 s1 b :
  wf_ty t -> wf_blocks (w_blocks w) -> room_made t chk w s need w1 s1 -> 0 < need -> In b (w_blocks w) -> b_base b = s_ptr s1 ->
  In (b_base b) (seq_base s).
Proof.
  intros Hwf Hbl Hroom Hn Hb E. destruct Hroom as [(H & -> & ->)|(Hg & Es & G)].
  - unfold seq_base. destruct (N.eqb_spec (s_cap s) 0); [lia|left; auto].
  - destruct G as (G1 & G2 & _). destruct (fresh_apart _ _ _ _ G1) as (F0 & Fm & FW & Fb & Fa).
    assert (Ec : s_cap s1 = new_cap t need (s_cap s)) by (rewrite Es; reflexivity).
    pose proof (new_cap_ge t need (s_cap s)) as [H1 H2].
    pose proof (storage_pos t chk (s_cap s1) Hwf ltac:(lia)) as Hst.
    unfold seq_base, rest_blocks in *. destruct (N.eqb_spec (s_cap s) 0).
    + specialize (Fb b Hb). destruct Hbl as [Hbl _]. specialize (Hbl b Hb). lia.
    + left. destruct (N.eq_dec (s_ptr s) (b_base b)); [auto|]. exfalso.
      assert (Hr : In b (without (w_blocks w) [s_ptr s])) by (apply in_without; split; auto; intros [H|[]]; auto).
      specialize (Fb b Hr). destruct Hbl as [Hbl _]. specialize (Hbl b Hb). lia.
Qed.

Lemma push_inv_ok t chk w s i vs :
  wf_ty t -> nonzst t -> wf_blocks (w_blocks w) -> seq_at w t chk s vs -> push_ready w t chk s i ->
  match seq_push t chk i (w, s) with
  | Ok _ (w', s') => exists v, ival t i = Some v /\ push_inv t chk w s i vs (vs ++ [v]) w' s'
  | Panic (w', s') => push_inv t chk w s i vs vs w' s'
  | UB _ => False
  end.
Proof.
  intros Hwf Hz Hbl Hat Hr. pose proof (seq_push_cases t chk w s i vs Hwf Hz Hbl Hat Hr) as HP.
  pose proof Hr as (Hi & _).
  pose proof (icells_ge t i Hwf) as Hcg. pose proof (sp_align_pos t Hwf) as Hp.
  unfold push_spec in HP. destruct HP as [(w1 & w' & -> & Href & U)|(Hzl & w1 & s1 & w2 & Hroom & Hneed & Hbl1 & Hat1 & Hr1 & Hmk & [Hf Hbx] & Hbits & Hat2 & HP)].
  - (* refused *)
    destruct (push_refused_same _ _ _ _ _ _ Href) as (Em & Eb & _).
    assert (Hmem : forall x, w_mem w' x = w_mem w x) by (intros x; rewrite <- Em; apply (upd_mem _ _ _ _ _ _ U); lia).
    assert (Hbk : w_blocks w' = without (w_blocks w) (ibases t i)) by (rewrite <- Eb; apply (upd_blocks _ _ _ _ _ _ U)).
    split; [|split; [|split; [|split; [|split]]]].
    + destruct Hat as (A1 & A2 & A3 & A4). split; [exact A1|]. split; [exact A2|]. split; [exact A3|].
      destruct A4 as [A4|(B1 & B2 & B3 & B4 & B5 & B6)]; [left; exact A4|right]. repeat split; auto.
      * rewrite Hbk. apply in_without. split; [exact B2|].
        apply (box_not_dst w t i (s_ptr s) (storage_bytes t chk (s_cap s))); auto.
        -- unfold push_ready in Hr. rewrite seq_bytes_pos in Hr by auto. exact Hr.
        -- apply storage_pos; auto.
      * eapply elems_shift; [exact Hwf| |exact B5]. intros; apply Hmem.
      * intros Hc j Hj. rewrite Hmem. auto.
    + rewrite Hbk. apply wf_blocks_without, Hbl.
    + intros b Hb Hn. rewrite in_app_iff in Hn. split; [rewrite Hbk; apply in_without; tauto|auto].
    + intros old Hc Hb. eapply bits_mem; [|exact Hb]. intros; apply Hmem.
    + intros b Hb E Hc. unfold seq_base. destruct (N.eqb_spec (s_cap s) 0); [lia|left; auto].
    + intros b Hb. rewrite Hbk in Hb. apply in_without in Hb. destruct Hb as [Hb Hn].
      destruct (old_blocks t chk w s vs b Hbl Hat Hb) as [H|H]; [left; exact H|right]. split; [exact Hb|].
      rewrite in_app_iff. tauto.
  - pose proof (isize_pos t i Hz Hi Hzl) as Hsz. pose proof (icells_pos t i Hwf Hsz) as Hcp.
    set (need := s_occ s + icells t i) in *.
    assert (Hocc : s_occ s1 = s_occ s) by (destruct Hroom as [(_ & _ & ->)|(_ & Es & _)]; [auto|rewrite Es; reflexivity]).
    assert (Hlen : s_len s1 = s_len s) by (destruct Hroom as [(_ & _ & ->)|(_ & Es & _)]; [auto|rewrite Es; reflexivity]).
    assert (Hc1 : 0 < s_cap s1) by (unfold need in Hneed; lia).
    assert (Hneed1 : s_occ s1 + icells t i <= s_cap s1) by (rewrite Hocc; exact Hneed).
    assert (Hbl2 : wf_blocks (w_blocks w2)) by (rewrite (proj1 Hmk); exact Hbl1).
    assert (Hr2 : init_ready w2 t i (s_ptr s1) (storage_bytes t chk (s_cap s1))).
    { destruct Hmk as (M1 & M2 & M3 & M4 & M5). apply (ready_mem w1); auto.
      destruct chk; [|rewrite Hf by reflexivity; intros x Hx; reflexivity].
      intros x Hx. apply M5. change (storage_bytes t true (s_cap s1)) with (s_cap s1 * sp_align t + bitmap_bytes (s_cap s1)) in Hx.
      assert (s_occ s1 / 8 < bitmap_bytes (s_cap s1)).
      { unfold bitmap_bytes. pose proof (N.div_mod (s_occ s1) 8 ltac:(lia)). pose proof (N.mod_lt (s_occ s1) 8 ltac:(lia)).
        pose proof (N.div_mod (s_cap s1 + 7) 8 ltac:(lia)). pose proof (N.mod_lt (s_cap s1 + 7) 8 ltac:(lia)). lia. }
      lia. }
    assert (Hun : forall w', untouched w2 w' (s_ptr s1 :: ibases t i) -> untouched w w' (seq_base s ++ ibases t i)).
    { intros w' Hu2.
      pose proof (room_untouched _ _ _ _ _ _ _ _ Hwf Hbl Hat Hroom) as Hu0.
      pose proof (marked_untouched t chk s1 w1 w2 vs Hwf Hbl1 Hat1 ltac:(lia) Hf Hmk) as Hu1.
      assert (Hu12 : untouched w1 w' (s_ptr s1 :: ibases t i)).
      { eapply untouched_mono; [eapply untouched_trans; eauto|]. intros x Hx. cbn in *. tauto. }
      apply (untouched_trans_fresh w w1 w' (seq_base s ++ ibases t i) (s_ptr s1 :: ibases t i)).
      - eapply untouched_mono; [exact Hu0|]. apply incl_appl, incl_refl.
      - exact Hu12.
      - intros b Hb [E|Hin]; apply in_or_app; [left|right; exact Hin].
        eapply (room_base t chk w s need w1 s1); eauto. unfold need; lia. }
    destruct (snd (irun t i)) as [v|] eqn:Ei.
    + destruct HP as (w' & -> & U & Hrp). exists v.
      pose proof (proj1 irun_ival t i) as Eiv. rewrite Ei in Eiv.
      assert (Eiv' : ival t i = Some v) by congruence. split; [exact Eiv'|].
      destruct (proj1 ival_ok_all t Hwf i v Hi Eiv') as [Hv Hsh]. specialize (Hv Hzl).
      destruct (seq_at_upd t chk s1 w2 w' _ _ vs i Hwf Hbl2 Hat2 Hr2 Hneed1 Hc1 U eq_refl) as (Hat3 & Hin3 & Hbm3 & Hu3).
      assert (Ecells : cells t v = icells t i) by (unfold cells, icells, vsize, isize; now rewrite Hsh).
      destruct Hat3 as (A1 & A2 & A3 & [[E _]|(B1 & B2 & B3 & B4 & B5 & B6)]); [lia|].
      split; [|split; [|split; [|split; [|split]]]].
      * split; [|split; [|split]]; cbn [s_len s_occ s_cap s_ptr].
        -- rewrite A1, len_app. unfold len; cbn. lia.
        -- rewrite total_app, <- A2. cbn [total]. rewrite Ecells. unfold need. lia.
        -- exact Hneed.
        -- right. split; [exact Hc1|]. split; [exact Hin3|]. split; [exact B3|]. split; [exact B4|]. split; [|exact B6].
           apply elems_app. split; [exact B5|]. cbn [elems_at]. rewrite <- A2. auto.
      * eapply upd_wf; eauto.
      * apply Hun, Hu3.
      * intros old Hc Hb. destruct (Hbits old Hc Hb) as [Hb2 Hbo]. intros _ o Ho Hoc. cbn [s_ptr s_cap s_occ] in *.
        assert (Ebit : bit_at w' t (mkS (s_ptr s1) (s_len s1 + 1) need (s_cap s1)) o = bit_at w2 t s1 o).
        { unfold bit_at. cbn [s_ptr s_cap]. rewrite Hbm3 by exact Hc. reflexivity. }
        rewrite Ebit, starts_app, N.add_0_l, <- A2. cbn [starts]. rewrite in_app_iff. cbn [In].
        destruct (N.eq_dec o (s_occ s1)) as [->|Hne]; [rewrite Hbo; tauto|].
        destruct (Hb2 Hc1 o Ho Hne) as [X Y]. split; [|tauto]. intros [H|[H|[]]]; [auto|congruence].
      * intros b Hb E _. cbn [s_ptr] in E. eapply (room_base t chk w s need w1 s1); eauto. unfold need; lia.
      * intros b Hb. rewrite (upd_blocks _ _ _ _ _ _ U), (proj1 Hmk) in Hb. apply in_without in Hb. destruct Hb as [Hb Hnb].
        destruct (room_blocks t chk w s need w1 s1 vs b Hwf Hbl Hat Hroom Hc1 Hb) as [[_ ->]|[H1 H2]].
        -- left. split; [exact Hc1|reflexivity].
        -- right. split; [exact H1|]. rewrite in_app_iff. tauto.
    + destruct HP as (w' & -> & U).
      destruct (seq_at_upd t chk s1 w2 w' _ _ vs i Hwf Hbl2 Hat2 Hr2 Hneed1 Hc1 U eq_refl) as (Hat3 & Hin3 & Hbm3 & Hu3).
      split; [exact Hat3|]. split; [eapply upd_wf; eauto|]. split; [apply Hun, Hu3|].
      split; [|split].
      * intros old Hc Hb. destruct (Hbits old Hc Hb) as [Hb2 Hbo]. eapply bits_mem; [|exact Hb2]. apply Hbm3, Hc.
      * intros b Hb E _. eapply (room_base t chk w s need w1 s1); eauto. unfold need; lia.
      * intros b Hb. rewrite (upd_blocks _ _ _ _ _ _ U), (proj1 Hmk) in Hb. apply in_without in Hb. destruct Hb as [Hb Hnb].
        destruct (room_blocks t chk w s need w1 s1 vs b Hwf Hbl Hat Hroom Hc1 Hb) as [[_ ->]|[H1 H2]].
        -- left. split; [exact Hc1|reflexivity].
        -- right. split; [exact H1|]. rewrite in_app_iff. tauto.
Qed.
