(** SeqBase.v - storage of sequences: allocation and growth. *)
From Verif Require Export Sources.

Lemma cells_up t v : wf_ty t -> cells t v * sp_align t = up (vsize t v) (sp_align t).
Proof. reflexivity. Qed.
Lemma cells_ge t v : wf_ty t -> vsize t v <= cells t v * sp_align t.
Proof. intros Hwf. rewrite cells_up by auto. apply up_ge, sp_align_pos, Hwf. Qed.
Lemma cells_pos t v : wf_ty t -> 0 < vsize t v -> 0 < cells t v.
Proof. intros Hwf H. pose proof (cells_ge t v Hwf). pose proof (sp_align_pos t Hwf). nia. Qed.

Lemma bitmap_le cap al : pow2 al -> cap * al + (al - 1) <= ISIZE_MAX -> cap * al + bitmap_bytes cap < W /\ cap + 7 < W.
Proof.
  intros Hal H. pose proof (pow2_pos _ Hal). unfold bitmap_bytes. rewrite ISIZE_eq in H. rewrite W_eq.
  assert (cap <= cap * al) by nia. split; lia.
Qed.
Lemma add_bitmask_ok cap al w :
  pow2 al -> cap * al + (al - 1) <= ISIZE_MAX ->
  add_bitmask_to_layout (cap * al) al w =
    Ok (if cap * al + bitmap_bytes cap + (al - 1) <=? ISIZE_MAX
        then Some (cap * al + bitmap_bytes cap, bitmap_bytes cap) else None) w.
Proof.
  intros Hal H. pose proof (pow2_pos _ Hal) as Hp. destruct (bitmap_le cap al Hal H) as [B1 B2].
  unfold add_bitmask_to_layout, add_bitmask_lim. rewrite N.mod_mul by lia. cbn [negb N.eqb].
  rewrite N.div_mul by lia. unfold checked_add. destruct (N.ltb_spec (cap + 7) W); [|lia].
  fold (bitmap_bytes cap). unfold padd. destruct (N.ltb_spec (cap * al + bitmap_bytes cap) W); [|lia].
  unfold bind, ret, from_size_align_lim. rewrite pow2_test by auto. cbn [andb].
  destruct (cap * al + bitmap_bytes cap + (al - 1) <=? ISIZE_MAX); reflexivity.
Qed.
Lemma bitmap_mono c c' : c <= c' -> bitmap_bytes c <= bitmap_bytes c'.
Proof. unfold bitmap_bytes. intros. apply N.div_le_mono; lia. Qed.
Lemma bitmap_pos c : 0 < c -> 0 < bitmap_bytes c.
Proof. unfold bitmap_bytes. intros. lia. Qed.
Lemma bitmap_cover c : c <= 8 * bitmap_bytes c /\ 8 * bitmap_bytes c < c + 8.
Proof. unfold bitmap_bytes. lia. Qed.

Lemma wf_block_in bl b : wf_blocks bl -> In b bl -> b_base b <> 0 /\ 0 < b_size b /\ b_base b + b_size b < W.
Proof. intros [H _] Hb. apply H, Hb. Qed.

Lemma fsa_pow al n : pow2 al -> from_size_align n al = (n + (al - 1) <=? ISIZE_MAX).
Proof. intros Hal. unfold from_size_align, from_size_align_lim. now rewrite pow2_test by auto. Qed.

(** A fresh block: the facts used below. *)
Lemma valid_block bl p n al : valid_answer bl p n al = true -> p <> 0 /\ p mod al = 0 /\ p + n < W.
Proof. intros H. destruct (fresh_apart _ _ _ _ H) as (A & B & C & _). auto. Qed.

Definition store_pre (bl : list block) (t : vty) (chk : bool) (ptr cap : N) : Prop :=
  cap = 0 \/ (0 < cap /\ In (mkB ptr (storage_bytes t chk cap) (sp_align t) true) bl /\
              storage_bytes t chk cap + (sp_align t - 1) <= ISIZE_MAX).
(** What remains of the blocks when the storage is taken out. *)
Definition rest_blocks (bl : list block) (ptr cap : N) : list block :=
  if cap =? 0 then bl else without bl [ptr].

Definition grown (t : vty) (chk : bool) (ptr cap p cap' : N) (w w' : world) : Prop :=
  valid_answer (rest_blocks (w_blocks w) ptr cap) p (storage_bytes t chk cap') (sp_align t) = true /\
  w_blocks w' = mkB p (storage_bytes t chk cap') (sp_align t) true :: rest_blocks (w_blocks w) ptr cap /\
  storage_bytes t chk cap' + (sp_align t - 1) <= ISIZE_MAX /\
  same_outside (w_mem w) (w_mem w') p (storage_bytes t chk cap') /\
  (forall i, i < cap * sp_align t -> w_mem w' (p + i) = w_mem w (ptr + i)) /\
  (chk = true -> forall j, j < bitmap_bytes cap' ->
     w_mem w' (p + cap' * sp_align t + j) =
       if j <? bitmap_bytes cap then w_mem w (ptr + cap * sp_align t + j) else By 0) /\
  w_alloc w' = w_alloc w /\ w_tick w' = S (w_tick w) /\
  w_log w' = w_log w ++ [if cap =? 0 then EAlloc p (storage_bytes t chk cap') (sp_align t)
                         else ERealloc ptr (storage_bytes t chk cap) (sp_align t) p (storage_bytes t chk cap')].

Definition refused (t : vty) (chk : bool) (ptr cap cap' : N) (w w' : world) : Prop :=
  (w' = w /\ ISIZE_MAX < storage_bytes t chk cap' + (sp_align t - 1)) \/
  (w' = tick w /\ forall p, w_alloc w (w_tick w) (storage_bytes t chk cap') (sp_align t) = Some p ->
     valid_answer (rest_blocks (w_blocks w) ptr cap) p (storage_bytes t chk cap') (sp_align t) = false).

Lemma realloc_cases' a size al newsize w :
  0 < newsize -> In (mkB a size al true) (w_blocks w) ->
  (exists p, valid_answer (without (w_blocks w) [a]) p newsize al = true /\
     realloc a size al newsize w =
     Ok p (mkW (fun x => if (p <=? x) && (x <? p + newsize)
                             then (if x <? p + N.min size newsize then w_mem w (a + (x - p)) else Un)
                             else w_mem w x)
                   (mkB p newsize al true :: without (w_blocks w) [a])
                   (w_alloc w) (S (w_tick w)) (w_log w ++ [ERealloc a size al p newsize]))) \/
  ((forall p, w_alloc w (w_tick w) newsize al = Some p -> valid_answer (without (w_blocks w) [a]) p newsize al = false) /\
   realloc a size al newsize w = Ok 0 (tick w)).
Proof.
  intros Hs Hin. unfold realloc. destruct (N.eqb_spec newsize 0); [lia|].
  rewrite (is_block_in _ _ Hin eq_refl : is_block (w_blocks w) a size al = true). cbn [negb].
  rewrite without_del. destruct (w_alloc w (w_tick w) newsize al) as [p|] eqn:E; [|right; split; [discriminate|reflexivity]].
  destruct (valid_answer (without (w_blocks w) [a]) p newsize al) eqn:Ev.
  - left. exists p. auto.
  - right. split; [|reflexivity]. intros q Eq. injection Eq as <-. exact Ev.
Qed.

Lemma fill_zero_ok w a n : a <> 0 -> live (w_blocks w) a n ->
  fill_zero a n w = Ok tt (set_mem w (fill (w_mem w) a n (By 0))).
Proof.
  intros H0 Hl. unfold fill_zero. now step (check_ref_ok w a n 1 H0 (N.mod_1_r a) Hl).
Qed.
Lemma fill_in m a n c x : a <= x < a + n -> fill m a n c x = c.
Proof. intros. unfold fill. destruct (N.leb_spec a x), (N.ltb_spec x (a + n)); cbn [andb]; auto; lia. Qed.
Lemma nonnull_some p : p <> 0 -> nonnull p = Some p.
Proof. intros. unfold nonnull. destruct (N.eqb_spec p 0); [contradiction|reflexivity]. Qed.

Lemma try_realloc_cases t chk w ptr cap need :
  wf_ty t -> wf_blocks (w_blocks w) -> store_pre (w_blocks w) t chk ptr cap ->
  let cap' := new_cap t need cap in
  exists r w', try_realloc chk ptr cap need (valign t) w = Ok r w' /\
    match r with
    | None => refused t chk ptr cap cap' w w'
    | Some (p, c) => c = cap' /\ grown t chk ptr cap p cap' w w'
    end.
Proof.
  intros Hwf Hbl Hpre cap'. rewrite (valign_sp t Hwf). set (al := sp_align t) in *.
  assert (Hal : pow2 al) by (apply sp_align_pow2; auto). pose proof (pow2_pos _ Hal) as Hp0.
  assert (Hc1 : 1 <= (32 + al - 1) / al) by (apply N.div_le_lower_bound; lia).
  assert (Hcap' : 1 <= cap' /\ cap * 2 <= cap') by (unfold cap', new_cap; fold al; lia).
  assert (Hst' : cap' * al <= storage_bytes t chk cap') by (unfold storage_bytes; fold al; lia).
  unfold try_realloc, checked_mul. destruct (N.ltb_spec (cap * 2) W) as [Hw2|Hw2].
  2:{ eexists _, _; split; [reflexivity|]. cbv beta iota. left. split; [reflexivity|]. fold al. rewrite ISIZE_eq. rewrite W_eq in Hw2. nia. }
  fold al. fold (new_cap t need cap). fold cap'.
  change (N.max (N.max need ((32 + al - 1) / al)) (cap * 2)) with cap'.
  destruct (N.ltb_spec (cap' * al) W) as [Hw3|Hw3].
  2:{ eexists _, _; split; [reflexivity|]. cbv beta iota. left. split; [reflexivity|]. fold al. rewrite ISIZE_eq. rewrite W_eq in Hw3. lia. }
  assert (Hold : cap * al + (al - 1) <= ISIZE_MAX /\ cap * al < W).
  { assert (Ha : cap * al + (al - 1) <= ISIZE_MAX).
    { destruct Hpre as [->|(_ & _ & Hs)].
      - pose proof (pow2_le _ Hal) as Hle. rewrite ISIZE_eq. change (2^29) with 536870912 in Hle. lia.
      - unfold storage_bytes in Hs. fold al in Hs. lia. }
    split; [exact Ha|]. rewrite ISIZE_eq in Ha. rewrite W_eq. lia. }
  destruct Hold as [Hold HoldW]. unfold pmul. destruct (N.ltb_spec (cap * al) W); [|lia].
  rewrite (bind_ok _ _ w (cap * al) w) by reflexivity.
  rewrite (fsa_pow al (cap * al)), (fsa_pow al (cap' * al)) by auto.
  destruct (N.leb_spec (cap * al + (al - 1)) ISIZE_MAX); [|lia]. cbn [negb].
  destruct (N.leb_spec (cap' * al + (al - 1)) ISIZE_MAX) as [Hnew|Hnew]; cbn [negb].
  2:{ eexists _, _; split; [reflexivity|]. cbv beta iota. left. split; [reflexivity|]. fold al. lia. }
  pose proof (bitmap_le cap' al Hal Hnew) as [Bw1 Bw2].
  destruct (N.eqb_spec cap 0) as [->|Hc0].
  - (* first allocation *)
    unfold alloc_storage. destruct chk.
    + (* checked *)
      unfold bind at 1 2. rewrite (add_bitmask_ok cap' al w Hal Hnew).
      change (cap' * al + bitmap_bytes cap') with (storage_bytes t true cap').
      destruct (N.leb_spec (storage_bytes t true cap' + (al - 1)) ISIZE_MAX) as [Hf|Hf].
      2:{ eexists _, _; split; [reflexivity|]. cbv beta iota. left. fold al. auto. }
      assert (Hpos : 0 < storage_bytes t true cap') by nia.
      destruct (alloc_cases (storage_bytes t true cap') al w Hpos) as [(p & Hv & Ha & E)|[Hno E]]; rewrite (bind_ok _ _ _ _ _ E).
      2:{ cbn. eexists _, _; split; [reflexivity|]. cbv beta iota. right. split; [reflexivity|].
          unfold rest_blocks. rewrite N.eqb_refl. fold al. exact Hno. }
      destruct (valid_block _ _ _ _ Hv) as (V1 & V2 & V3). rewrite nonnull_some by auto. cbv beta iota.
      set (w1 := mkW _ _ _ _ _).
      assert (Hl : live (w_blocks w1) (p + cap' * al) (bitmap_bytes cap')).
      { right. eexists. split; [left; reflexivity|]. unfold storage_bytes; fold al. cbn. lia. }
      unfold bind at 1. rewrite (fill_zero_ok w1 (p + cap' * al) (bitmap_bytes cap')) by (auto; lia).
      cbn [ret]. eexists _, _; split; [reflexivity|]. cbv beta iota. split; [reflexivity|].
      unfold grown, rest_blocks. rewrite N.eqb_refl. fold al. repeat split; auto.
      * intros x Hx. cbn. unfold storage_bytes in Hx. fold al in Hx. rewrite (fill_out _ (p + cap' * al)) by lia. apply fill_out. unfold storage_bytes; fold al. lia.
      * intros i Hi. lia.
      * intros _ j Hj. cbn. rewrite fill_in by lia. destruct (N.ltb_spec j (bitmap_bytes 0)) as [Hz|_]; [|reflexivity].
        change (bitmap_bytes 0) with 0 in Hz. lia.
    + assert (Hsb : forall c, storage_bytes t false c = c * al) by (intros c; unfold storage_bytes; fold al; lia).
      rewrite ?Hsb in *.
      assert (Hpos : 0 < cap' * al) by nia.
      unfold bind at 1 2.
      destruct (alloc_cases (cap' * al) al w Hpos) as [(p & Hv & Ha & E)|[Hno E]]; rewrite E.
      2:{ cbn. eexists _, _; split; [reflexivity|]. cbv beta iota. right. split; [reflexivity|].
          unfold rest_blocks. rewrite N.eqb_refl, Hsb. fold al. exact Hno. }
      destruct (valid_block _ _ _ _ Hv) as (V1 & V2 & V3). unfold ret. rewrite nonnull_some by auto.
      eexists _, _; split; [reflexivity|]. cbv beta iota. split; [reflexivity|].
      unfold grown, rest_blocks. rewrite N.eqb_refl, !Hsb. fold al. repeat split; auto.
      * apply fill_out.
      * intros i Hi. lia.
      * discriminate.
  - (* growth *)
    destruct Hpre as [->|(Hc & Hin & Hs)]; [contradiction|].
    assert (Hrest : rest_blocks (w_blocks w) ptr cap = without (w_blocks w) [ptr]).
    { unfold rest_blocks. destruct (N.eqb_spec cap 0); [contradiction|reflexivity]. }
    unfold grow_storage. destruct chk.
    + pose proof (bitmap_mono cap cap' ltac:(lia)) as Hmono.
      assert (Hsb : forall c, storage_bytes t true c = c * al + bitmap_bytes c) by reflexivity.
      unfold bind at 1 2. rewrite (add_bitmask_ok cap al w Hal Hold).
      change (cap * al + bitmap_bytes cap) with (storage_bytes t true cap). fold al in Hs.
      destruct (N.leb_spec (storage_bytes t true cap + (al - 1)) ISIZE_MAX); [|lia].
      rewrite (fsa_pow al (cap' * al)) by auto.
      destruct (N.leb_spec (cap' * al + (al - 1)) ISIZE_MAX); [|lia]. cbn [negb].
      unfold bind at 1. rewrite (add_bitmask_ok cap' al w Hal Hnew).
      change (cap' * al + bitmap_bytes cap') with (storage_bytes t true cap').
      destruct (N.leb_spec (storage_bytes t true cap' + (al - 1)) ISIZE_MAX) as [Hf|Hf].
      2:{ eexists _, _; split; [reflexivity|]. cbv beta iota. left. fold al. auto. }
      assert (Hpos : 0 < storage_bytes t true cap') by nia.
      destruct (realloc_cases' ptr (storage_bytes t true cap) al (storage_bytes t true cap') w Hpos Hin)
        as [(p & Hv & E)|[Hno E]]; rewrite (bind_ok _ _ _ _ _ E).
      2:{ cbn. eexists _, _; split; [reflexivity|]. cbv beta iota. right. split; [reflexivity|].
          rewrite Hrest. fold al. exact Hno. }
      destruct (valid_block _ _ _ _ Hv) as (V1 & V2 & V3). rewrite nonnull_some by auto. cbv beta iota.
      assert (Hmin : N.min (storage_bytes t true cap) (storage_bytes t true cap') = storage_bytes t true cap).
      { unfold storage_bytes. fold al. nia. }
      rewrite Hmin in *. set (w1 := mkW _ _ _ _ _).
      assert (Hcc : cap * al + bitmap_bytes cap <= storage_bytes t true cap').
      { unfold storage_bytes. fold al. nia. }
      assert (Hl1 : live (w_blocks w1) (p + cap * al) (bitmap_bytes cap)).
      { right. eexists. split; [left; reflexivity|]. cbn [b_base b_size]. lia. }
      assert (Hl2 : live (w_blocks w1) (p + cap' * al) (bitmap_bytes cap')).
      { right. eexists. split; [left; reflexivity|]. cbn [b_base b_size]. unfold storage_bytes. fold al. lia. }
      unfold bind at 1. rewrite (check_ref_ok w1 (p + cap * al) (bitmap_bytes cap) 1) by (auto; try lia; apply N.mod_1_r).
      unfold bind at 1. rewrite (check_ref_ok w1 (p + cap' * al) (bitmap_bytes cap') 1) by (auto; try lia; apply N.mod_1_r).
      unfold bind at 1. unfold copy_bytes.
      rewrite (bind_ok _ _ _ _ _ (check_ref_ok w1 (p + cap * al) (bitmap_bytes cap) 1 ltac:(lia) (N.mod_1_r _) Hl1)).
      rewrite (bind_ok _ _ _ _ _ (check_ref_ok w1 (p + cap' * al) (bitmap_bytes cap) 1 ltac:(lia) (N.mod_1_r _) ltac:(eapply live_pre; eauto))).
      destruct (N.leb_spec (bitmap_bytes cap) (bitmap_bytes cap')); [|lia].
      set (w2 := set_mem w1 _).
      assert (Hl3 : live (w_blocks w2) (p + cap' * al + bitmap_bytes cap) (bitmap_bytes cap' - bitmap_bytes cap)).
      { eapply live_sub; [exact Hl2|]. lia. }
      unfold bind at 1. rewrite (fill_zero_ok w2 (p + cap' * al + bitmap_bytes cap) (bitmap_bytes cap' - bitmap_bytes cap) ltac:(lia) Hl3). cbn [ret].
      eexists _, _; split; [reflexivity|]. cbv beta iota. split; [reflexivity|].
      unfold grown. rewrite Hrest. fold al. unfold storage_bytes in V3; fold al in V3.
      repeat split; auto.
      * intros x Hx. unfold storage_bytes in Hx; fold al in Hx.
        cbn [set_mem w_mem]. rewrite (fill_out _ (p + cap' * al + bitmap_bytes cap)) by lia.
        unfold w2. cbn [set_mem w_mem]. rewrite move_out by lia. unfold w1. cbn [w_mem].
        destruct (N.leb_spec p x), (N.ltb_spec x (p + storage_bytes t true cap')); cbn [andb]; auto.
        exfalso. rewrite ?Hsb in *. lia.
      * intros i Hi. cbn [set_mem w_mem]. rewrite (fill_out _ (p + cap' * al + bitmap_bytes cap)) by nia.
        unfold w2. cbn [set_mem w_mem]. rewrite move_out by nia. unfold w1. cbn [w_mem].
        destruct (N.leb_spec p (p + i)), (N.ltb_spec (p + i) (p + storage_bytes t true cap')); cbn [andb]; try (exfalso; rewrite ?Hsb in *; lia).
        destruct (N.ltb_spec (p + i) (p + storage_bytes t true cap)).
        2:{ exfalso. rewrite ?Hsb in *. lia. }
        f_equal. lia.
      * intros _ j Hj. cbn [set_mem w_mem]. destruct (N.ltb_spec j (bitmap_bytes cap)) as [Hjc|Hjc].
        -- rewrite (fill_out _ (p + cap' * al + bitmap_bytes cap)) by lia.
           unfold w2. cbn [set_mem w_mem]. rewrite move_in by lia. unfold w1. cbn [w_mem].
           destruct (N.leb_spec p (p + cap * al + j)), (N.ltb_spec (p + cap * al + j) (p + storage_bytes t true cap')); cbn [andb]; try lia.
           destruct (N.ltb_spec (p + cap * al + j) (p + storage_bytes t true cap)).
           2:{ exfalso. rewrite ?Hsb in *. lia. }
           f_equal. lia.
        -- apply fill_in. lia.
      * destruct (N.eqb_spec cap 0); [contradiction|]. reflexivity.
    + assert (Hsb : forall c, storage_bytes t false c = c * al) by (intros c; unfold storage_bytes; fold al; lia).
      rewrite ?Hsb in *.
      assert (Hpos : 0 < cap' * al) by nia. unfold bind at 1 2.
      destruct (realloc_cases' ptr (cap * al) al (cap' * al) w Hpos Hin) as [(p & Hv & E)|[Hno E]]; rewrite E.
      2:{ cbn. eexists _, _; split; [reflexivity|]. cbv beta iota. right. split; [reflexivity|].
          rewrite Hrest, Hsb. fold al. exact Hno. }
      destruct (valid_block _ _ _ _ Hv) as (V1 & V2 & V3). unfold ret. rewrite nonnull_some by auto.
      assert (Hmin : N.min (cap * al) (cap' * al) = cap * al) by nia. rewrite Hmin in *.
      eexists _, _; split; [reflexivity|]. cbv beta iota. split; [reflexivity|].
      unfold grown. rewrite Hrest, !Hsb. fold al.
      repeat split; auto.
      * intros x Hx. cbn [w_mem]. destruct (N.leb_spec p x), (N.ltb_spec x (p + cap' * al)); cbn [andb]; auto. lia.
      * intros i Hi. cbn [w_mem].
        destruct (N.leb_spec p (p + i)), (N.ltb_spec (p + i) (p + cap' * al)); cbn [andb]; try nia.
        destruct (N.ltb_spec (p + i) (p + cap * al)); [f_equal; lia|lia].
      * discriminate.
      * destruct (N.eqb_spec cap 0); [contradiction|]. reflexivity.
Qed.
