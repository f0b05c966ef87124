(** PropsDebug.v - property C48: debug assertions never fire. *)
From Verif Require Import Debug.
From Verif Require Import Examples BoxFacts SeqHist.

Lemma add_bitmask_val size al w r w' :
  add_bitmask_to_layout size al w = Ok (Some r) w' -> snd r = (size / al + 7) / 8.
Proof.
  unfold add_bitmask_to_layout, add_bitmask_lim. destruct (negb (size mod al =? 0)); [discriminate|].
  unfold checked_add. destruct (size / al + 7 <? W); [|discriminate]. unfold bind, padd.
  destruct (size + (size / al + 7) / 8 <? W); [|discriminate]. unfold ret.
  destruct (from_size_align_lim ISIZE_MAX (size + (size / al + 7) / 8) al); [|discriminate].
  intros H. injection H as <- _. reflexivity.
Qed.

Lemma bind_ext {S A B} (m : M S A) (k k' : A -> M S B) s :
  (forall a s', m s = Ok a s' -> k a s' = k' a s') -> bind m k s = bind m k' s.
Proof. intros H. unfold bind. destruct (m s) eqn:E; auto. Qed.
Lemma bind_same {S A B} (m m' : M S A) (k : A -> M S B) s : m s = m' s -> bind m k s = bind m' k s.
Proof. intros H. unfold bind. now rewrite H. Qed.

Lemma grow_dbg chk ptr old_size al new_size w : old_size <= new_size ->
  grow_storage_dbg chk ptr old_size al new_size w = grow_storage chk ptr old_size al new_size w.
Proof.
  intros Hle. destruct chk; [|reflexivity]. unfold grow_storage_dbg, grow_storage, debug_assert.
  destruct (N.leb_spec old_size new_size); [|lia]. rewrite (bind_ok _ _ w tt w) by reflexivity.
  apply bind_ext. intros [[of ob]|] w1 E1; [|reflexivity].
  destruct (negb (from_size_align new_size al)); [reflexivity|].
  apply bind_ext. intros [[nf nb]|] w2 E2; [|reflexivity].
  apply add_bitmask_val in E1, E2. cbn [snd] in E1, E2.
  assert (Hb : ob <= nb).
  { subst ob nb. destruct (N.eq_dec al 0) as [->|Ha].
    - destruct old_size, new_size; reflexivity || (cbn; lia).
    - apply N.div_le_mono; [lia|]. pose proof (N.div_le_mono old_size new_size al Ha Hle). lia. }
  destruct (N.leb_spec ob nb); [|lia].
  apply bind_ext. intros p w3 _. destruct (nonnull p) as [p'|]; [|reflexivity].
  apply bind_ext. intros [] w4 _. apply bind_ext. intros [] w5 _. reflexivity.
Qed.

Lemma try_realloc_dbg_eq chk ptr cap need al w :
  try_realloc_dbg chk ptr cap need al w = try_realloc chk ptr cap need al w.
Proof.
  unfold try_realloc_dbg, try_realloc. destruct (checked_mul cap 2) as [c2|] eqn:E2; [|reflexivity].
  set (so := N.max (N.max need ((32 + al - 1) / al)) c2).
  assert (Hso : cap <= so).
  { unfold checked_mul in E2. destruct (cap * 2 <? W); [|discriminate]. injection E2 as <-. unfold so. lia. }
  destruct (checked_mul so al) as [sb|] eqn:E3; [|reflexivity].
  assert (sb = so * al) as -> by (unfold checked_mul in E3; destruct (so * al <? W); congruence).
  apply bind_ext. intros os w1 E. unfold pmul in E. destruct (cap * al <? W); [|discriminate]. injection E as <- <-.
  destruct (negb (from_size_align (cap * al) al)); [reflexivity|].
  destruct (negb (from_size_align (so * al) al)); [reflexivity|].
  apply bind_same. destruct (cap =? 0); [reflexivity|]. apply grow_dbg. nia.
Qed.

(** C48. Seq::push (hence extend, collect, seq!): the debug build behaves exactly as the release
    build, in every state and for every initializer. *)
Theorem C48_push_never_asserts : forall t chk i w s,
  seq_push_dbg t chk i (w, s) = seq_push t chk i (w, s).
Proof.
  intros. unfold seq_push_dbg, seq_push. apply bind_ext. intros [l|] [w1 s1] _; [|reflexivity].
  destruct (checked_add (lay_size l) (valign t - 1)) as [x|]; [|reflexivity].
  apply bind_ext. intros s2 [w2 s3] _.
  destruct (checked_add (s_occ s2) (x / valign t)) as [need|]; [|reflexivity].
  apply bind_same. destruct (s_cap s2 <? need); [|reflexivity]. apply bind_same. unfold lft, on_unwind.
  assert (E : must_realloc_dbg chk (s_ptr s2) (s_cap s2) need (valign t) w2 = must_realloc chk (s_ptr s2) (s_cap s2) need (valign t) w2).
  { unfold must_realloc_dbg, must_realloc. apply bind_same. apply try_realloc_dbg_eq. }
  rewrite E. reflexivity.
Qed.

(** VBox::new: for every usable initializer (and whatever the allocator answers). *)
Theorem C48_vbox_new_never_asserts : forall t i w,
  wf_ty t -> wf_blocks (w_blocks w) -> usable w t i -> vbox_new_dbg t i w = vbox_new t i w.
Proof.
  intros t i w Hwf Hbl Hu. pose proof (vbox_new_ok t w i) as Hok.
  destruct (ilens t i) eqn:Ez.
  2:{ unfold vbox_new_dbg, vbox_new. destruct (init_layout_bad t w i 0 0 Hwf Hu Ez) as [El|El].
      - now rewrite !(bind_ok _ _ _ _ _ (on_unwind_ok _ (drop_init t i) _ _ _ El)).
      - unfold bind, on_unwind. rewrite El. destruct (drop_init t i w); reflexivity. }
  pose proof (on_unwind_ok _ (drop_init t i) _ _ _ (init_layout_ok t w i 0 0 Hwf Hu Ez)) as El.
  pose proof (lay_size_ishape t i (proj1 Hu)) as Els.
  unfold vbox_new_dbg. unfold vbox_new in *. rewrite (bind_ok _ _ _ _ _ El). rewrite !(bind_ok _ _ _ _ _ El) in *.
  destruct (isize t i <? W); [|reflexivity].
  destruct (from_size_align (lay_size (sp_lay t (ishape t i))) (valign t)); [|reflexivity].
  apply bind_ext. intros p w1 Ea. destruct (p =? 0) eqn:Ep; [reflexivity|]. apply bind_ext. intros [] w2 Ei.
  assert (Hnew : exists v, obj_at w2 t p v /\ vsize t v = isize t i).
  { destruct (Hok p w2 Hwf Hbl Hu) as (v & _ & (Hobj & _) & Hsz & _); [|eauto].
    rewrite (bind_ok _ _ _ _ _ Ea), Ep. rewrite (bind_ok _ _ _ _ _ Ei). reflexivity. }
  destruct Hnew as (v & Hobj & Hsz).
  rewrite (bind_ok _ _ _ _ _ (deref_ok t w2 p v Hwf Hobj)).
  rewrite (bind_ok _ _ _ _ _ (calc_layout_ok t w2 p v Hwf Hobj)).
  unfold debug_assert. rewrite Els, (lay_size_sp t v) by (apply Hobj). rewrite Hsz, N.eqb_refl. reflexivity.
Qed.

(** offset_of on a reference to any live object of the element type, for a sequence that has
    storage. On a sequence without storage the release build panics for every reference. *)
Theorem C48_offset_of_never_asserts : forall t chk w s vs old e v,
  wf_ty t -> nonzst t -> shist t chk w s vs old -> obj_at w t e v ->
  (0 < seq_capacity s -> offset_of_dbg t s e w = offset_of t s e w) /\
  (seq_capacity s = 0 -> offset_of t s e w = Panic w).
Proof.
  intros t chk w s vs old e v Hwf Hz H (_ & (P0 & Pm & PW & _) & _).
  destruct (shist_inv t chk w s vs old Hwf Hz H) as (Hat & Hbl & _). pose proof (sp_align_pos t Hwf) as Hp.
  pose proof Hat as (A1 & A2 & A3 & A4). unfold seq_capacity. split; intros Hc.
  - destruct A4 as [[[E _] _]|(B1 & B2 & B3 & B4 & B5 & B6)]; [lia|].
    destruct (in_storage_W _ _ _ _ _ Hbl Hat B1) as [Q0 QW].
    unfold offset_of_dbg, offset_of. rewrite (valign_sp t Hwf).
    assert (E : wrapping_sub e (s_ptr s) mod sp_align t = 0).
    { unfold wrapping_sub. rewrite (N.mod_small (s_ptr s)) by lia.
      apply N.mod_divide; [lia|]. apply N.mod_divide in Pm; [|lia]. apply N.mod_divide in B4; [|lia].
      assert (HW : (sp_align t | W)).
      { destruct (sp_align_pow2 t Hwf) as (k & Hk & ->). exists (2 ^ (64 - k)). rewrite <- N.pow_add_r.
        replace (64 - k + k) with 64 by lia. reflexivity. }
      destruct (N.le_gt_cases (s_ptr s) e) as [Hle|Hgt].
      - replace (e + (W - s_ptr s)) with ((e - s_ptr s) + 1 * W) by lia.
        rewrite N.mod_add by (rewrite W_eq; lia). rewrite N.mod_small by lia. apply N.divide_sub_r; auto.
      - rewrite N.mod_small by lia. apply N.divide_add_r; [auto|]. apply N.divide_sub_r; auto. }
    unfold bind, debug_assert. rewrite E. rewrite N.eqb_refl. reflexivity.
  - unfold offset_of. generalize (wrapping_sub e (s_ptr s) / valign t). intros q.
    destruct (N.leb_spec (s_occ s) q); [reflexivity|lia].
Qed.

(** from_offset / from_offset_mut: in every state and for every offset. from_offset_unchecked: for
    every offset the caller is allowed to use. *)
Theorem C48_from_offset_never_asserts : forall t s o w,
  from_offset_dbg t s o w = from_offset t s o w.
Proof.
  intros. unfold from_offset_dbg, from_offset, bind.
  destruct (is_offset_valid t s o w) as [[|] w1|w1|u] eqn:E; try reflexivity.
  unfold from_offset_unchecked_dbg, from_offset_unchecked, bind, debug_assert.
  destruct (N.ltb_spec o (s_occ s)) as [Hlt|Hge]; [reflexivity|]. exfalso.
  unfold is_offset_valid in E. destruct (N.leb_spec (s_occ s) o); [discriminate|lia].
Qed.
Theorem C48_from_offset_unchecked_never_asserts : forall t chk w s vs old k o,
  wf_ty t -> nonzst t -> shist t chk w s vs old ->
  nth_error (starts t vs 0) k = Some o ->
  from_offset_unchecked_dbg t s o w = from_offset_unchecked t s o w.
Proof.
  intros t chk w s vs old k o Hwf Hz H Hk. apply nth_error_In in Hk.
  destruct (shist_inv t chk w s vs old Hwf Hz H) as (Hat & Hbl & _).
  pose proof Hat as (A1 & A2 & A3 & A4). destruct A4 as [[_ ->]|(B1 & _ & _ & _ & B5 & _)]; [contradiction|].
  pose proof (starts_lt t vs 0 o Hwf Hz (elems_vok _ _ _ _ B5) Hk) as Hlt. rewrite <- A2 in Hlt.
  unfold from_offset_unchecked_dbg, from_offset_unchecked, debug_assert.
  destruct (N.ltb_spec o (s_occ s)); [reflexivity|lia].
Qed.

(** The assertions are really executed: a box of 52 bytes with nested parts, a checked sequence that
    grows several times, look-ups in it. *)
Definition outcome {S A} (r : res S A) : bool := match r with Ok _ _ => true | _ => false end.
Definition run_seq_dbg (t : vty) (chk : bool) (is_ : list init) :=
  for_each (seq_push_dbg t chk) is_ (w_start, seq_new t).
Example C48_meets :
  wf_ty t_ex /\ wf_blocks (w_blocks w_start) /\ usable w_start t_ex i_ex /\
  outcome (vbox_new_dbg t_ex i_ex w_start) = true /\
  match run_seq_dbg t_ex true [i_ex; i_ex; i_ex; i_ex] with
  | Ok _ (w, s) =>
      s_cap s = 28 /\ s_len s = 4 /\
      match offset_of_dbg t_ex s (s_ptr s + 14 * 8) w, from_offset_dbg t_ex s 7 w with
      | Ok 14 _, Ok a _ => a = s_ptr s + 7 * 8
      | _, _ => False
      end
  | _ => False
  end.
Proof.
  split; [apply t_ex_wf|]. split; [apply w_start_ok|]. split; [apply i_ex_usable|].
  vm_compute. repeat split.
Qed.
(** They can fail in states that no history reaches: growing to a smaller size; and on a sequence
    without storage, for a reference that does not belong to it (the release build panics too). *)
Example C48_assertions_bite :
  grow_storage_dbg true 4096 64 8 32 (w_room 72) = UB UAssert /\
  offset_of_dbg t_tup (seq_new t_tup) 4096 (w_room 72) = UB UAssert /\
  offset_of t_tup (seq_new t_tup) 4096 (w_room 72) = Panic (w_room 72).
Proof. repeat split. Qed.
