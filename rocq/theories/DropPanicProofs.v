(** DropPanicProofs.v - the functions of DropPanic.v do what DropPanicSpec.v says. *)
From Verif Require Export DropPanicSpec ProgSteps.

Lemma dlift_ok {S A} (m : M S A) s a s' : m s = Ok a s' -> dlift m s = DOk a s'.
Proof. unfold dlift. now intros ->. Qed.
Lemma dbind_ok {S A B} (m : D S A) (k : A -> D S B) s a s' : m s = DOk a s' -> dbind m k s = k a s'.
Proof. unfold dbind. now intros ->. Qed.
Lemma dlift_bind {S A B} (m : M S A) (k : A -> D S B) s a s' : m s = Ok a s' -> dbind (dlift m) k s = k a s'.
Proof. intros H. apply dbind_ok, dlift_ok, H. Qed.
Lemma destroyed_drops es : destroyed es = drops_of es.
Proof. induction es as [|[] es IH]; cbn [destroyed drops_of]; congruence. Qed.

(** ** groups *)
Lemma vgroups_vdrops :
  (forall t v, concat (vgroups t v) = vdrops t v) /\ (forall fs vs, concat (vgroups_flds fs vs) = vdrops_flds fs vs).
Proof.
  apply vty_flds_ind.
  - intros f v. destruct v; cbn; try reflexivity. destruct (f_drop f); reflexivity.
  - intros f k v. destruct v; cbn; try reflexivity. destruct (f_drop f); [cbn; now rewrite app_nil_r|reflexivity].
  - intros t IH v. destruct v; cbn; try reflexivity. apply IH.
  - intros kd hs ha fs IH v. destruct v; cbn; try reflexivity. apply IH.
  - intros vs. destruct vs; reflexivity.
  - intros off f r IH vs. destruct vs as [|[] vs]; cbn; try reflexivity. rewrite concat_app, IH. destruct (f_drop f); reflexivity.
  - intros off f r IH vs. destruct vs as [|[] vs]; cbn; try reflexivity. rewrite concat_app, IH. destruct (f_drop f); reflexivity.
  - intros t IHt r IH vs. destruct vs as [|v vs]; cbn; try reflexivity. now rewrite concat_app, IH, IHt.
  - intros f lf r IH vs. destruct vs as [|[] vs]; cbn; try reflexivity. rewrite concat_app, IH. destruct (f_drop f); [cbn; now rewrite app_nil_r|reflexivity].
Qed.
Lemma groups_owned v : concat (groups_of v) = owned_drops v.
Proof.
  destruct v as [t v|t v|t c vs old|]; cbn [groups_of owned_drops]; try apply vgroups_vdrops; [|reflexivity].
  induction vs as [|v vs IH]; [reflexivity|]. cbn [map concat]. now rewrite concat_app, IH, (proj1 vgroups_vdrops).
Qed.
Lemma panics_none dp g : panics dp g = 0%nat <-> existsb dp g = false.
Proof.
  unfold panics. induction g as [|x g IH]; cbn [filter existsb length]; [tauto|]. destruct (dp x); cbn [length orb]; [split; discriminate|exact IH].
Qed.
Lemma groups_app dp g1 g2 : drop_groups dp (g1 ++ g2) =
  match drop_groups dp g1 with
  | (Survives, d1) => (fst (drop_groups dp g2), d1 ++ snd (drop_groups dp g2))
  | (Unwinds, d1) => (Unwinds, d1)
  | (Aborts, d1) => (Aborts, d1)
  end.
Proof.
  induction g1 as [|g g1 IH]; cbn [app drop_groups]; [destruct (drop_groups dp g2); reflexivity|].
  destruct (panics dp g) as [|[|k]]; try reflexivity. rewrite IH.
  destruct (drop_groups dp g1) as [[] d1]; try reflexivity. now rewrite app_assoc.
Qed.
(** What is destroyed is a prefix of all values; nothing panics exactly if all are destroyed. *)
Lemma groups_prefix dp gs : match drop_groups dp gs with
  | (Survives, d) => d = concat gs /\ existsb dp d = false
  | (Unwinds, d) => (exists rest, concat gs = d ++ rest) /\ panics dp d = 1%nat
  | (Aborts, _) => (2 <= panics dp (concat gs))%nat
  end.
Proof.
  induction gs as [|g gs IH]; cbn [drop_groups concat]; [auto|].
  assert (Ha : forall a b, panics dp (a ++ b) = (panics dp a + panics dp b)%nat) by (intros; unfold panics; now rewrite filter_app, app_length).
  destruct (panics dp g) as [|[|k]] eqn:Eg.
  - destruct (drop_groups dp gs) as [[] d].
    + destruct IH as [-> E]. split; [reflexivity|]. apply panics_none. rewrite Ha, Eg. now apply panics_none.
    + destruct IH as [(rest & ->) E]. split; [exists rest; apply app_assoc|]. rewrite Ha. lia.
    + rewrite Ha. lia.
  - split; [eauto|exact Eg].
  - rewrite Ha. lia.
Qed.

(** ** dropping *)
Definition dropped (dp : list cell -> bool) (gs : list (list (list cell))) (w : world) : dres world unit :=
  match drop_groups dp gs with
  | (Survives, d) => DOk tt (add_log w (map EDrop d))
  | (Unwinds, d) => DPanic (add_log w (map EDrop d))
  | (Aborts, _) => DAbort
  end.
Lemma dropped_nil dp w : dropped dp [] w = DOk tt w.
Proof. unfold dropped. cbn. now rewrite add_log_nil. Qed.
Lemma dropped_app dp g1 g2 (m1 m2 : D world unit) w :
  m1 w = dropped dp g1 w -> (forall es, m2 (add_log w es) = dropped dp g2 (add_log w es)) ->
  (m1 ~;; m2) w = dropped dp (g1 ++ g2) w.
Proof.
  intros E1 E2. unfold dbind. rewrite E1. unfold dropped. rewrite groups_app.
  destruct (drop_groups dp g1) as [[] d1]; try reflexivity. rewrite E2. unfold dropped.
  destruct (drop_groups dp g2) as [[] d2]; cbn [fst snd]; rewrite ?add_log_app, ?map_app; reflexivity.
Qed.
Lemma destructor_ok dp bs w : run_destructor dp bs w = dropped dp [[bs]] w.
Proof.
  unfold run_destructor, dbind, dlift, emit, dropped. cbn [drop_groups]. unfold panics. cbn [filter].
  destruct (dp bs); reflexivity.
Qed.
Lemma drop_leaf_p_ok dp f a w : a <> 0 -> a mod f_align f = 0 -> live (w_blocks w) a (f_size f) ->
  drop_leaf_p dp f a w = dropped dp (if f_drop f then [[rd (w_mem w) a (f_size f)]] else []) w.
Proof.
  intros H0 Hm Hl. unfold drop_leaf_p. destruct (f_drop f); [|symmetry; apply dropped_nil].
  rewrite (dlift_bind _ _ w (rd (w_mem w) a (f_size f)) w); [apply destructor_ok|]. now apply load_ok.
Qed.
(** A slice is one group. *)
Lemma drop_seq_p_ok dp f (addrs : list N) : forall w,
  f_drop f = true ->
  (forall a, In a addrs -> a <> 0 /\ a mod f_align f = 0 /\ live (w_blocks w) a (f_size f)) ->
  drop_seq_p dp f addrs w = dropped dp [map (fun a => rd (w_mem w) a (f_size f)) addrs] w.
Proof.
  induction addrs as [|a r IH]; intros w Hd Hin; cbn [drop_seq_p map].
  - unfold dropped. cbn. now rewrite add_log_nil.
  - destruct (Hin a (or_introl eq_refl)) as (B1 & B2 & B3).
    assert (Hr : forall es, drop_seq_p dp f r (add_log w es) = dropped dp [map (fun a => rd (w_mem w) a (f_size f)) r] (add_log w es)).
    { intros es. rewrite (IH (add_log w es) Hd); [reflexivity|]. intros x Hx. apply Hin. right. exact Hx. }
    unfold dbind, dunwind. rewrite (drop_leaf_p_ok dp f a w B1 B2 B3), Hd. set (b := rd (w_mem w) a (f_size f)).
    set (l := map (fun a0 => rd (w_mem w) a0 (f_size f)) r) in *.
    unfold dropped at 1 2. cbn [drop_groups]. unfold panics at 1 2. cbn [filter].
    destruct (dp b) eqn:Eb; cbn [length]; rewrite ?Hr; unfold dropped; cbn [drop_groups]; unfold panics; cbn [filter]; rewrite ?Eb; cbn [length];
      destruct (length (filter dp l)) as [|[|k]]; cbn [app map]; rewrite ?app_nil_r, ?add_log_app; reflexivity.
Qed.
Lemma drop_seq_p_no dp f (addrs : list N) w : f_drop f = false -> drop_seq_p dp f addrs w = DOk tt w.
Proof.
  intros Hd. induction addrs as [|a r IH]; cbn [drop_seq_p]; [reflexivity|].
  unfold dbind, dunwind, drop_leaf_p. rewrite Hd. unfold dret at 1. exact IH.
Qed.
Lemma drop_array_p_ok dp f a off xs w :
  fty_ok f -> elems_ok f xs -> a + off < W -> a + off <> 0 -> (a + off) mod f_align f = 0 ->
  live (w_blocks w) (a + off) (len xs * f_size f) ->
  rd (w_mem w) (a + off) (len xs * f_size f) = concat xs ->
  drop_array_p dp f a off (len xs) w = dropped dp (if f_drop f then [xs] else []) w.
Proof.
  intros Hf Hx HW H0 Hm Hl Hr. unfold drop_array_p. rewrite wadd_small by auto.
  rewrite (dlift_bind _ _ _ _ _ (check_ref_ok w _ _ _ H0 Hm Hl)).
  pose proof (rd_chunks (w_mem w) (a + off) f xs Hx Hr) as E.
  destruct (f_drop f) eqn:Ed; [|rewrite dropped_nil; now apply drop_seq_p_no].
  rewrite drop_seq_p_ok; [|exact Ed|].
  - rewrite map_map, E. reflexivity.
  - intros x Hin. apply in_map_iff in Hin. destruct Hin as (i & <- & Hi). apply in_upto in Hi. eapply elem_place; eauto.
Qed.
Lemma no_groups_all :
  (forall t v, needs_vdrop t = false -> vgroups t v = []) /\
  (forall fs vs, fneeds fs = false -> vgroups_flds fs vs = []).
Proof.
  apply vty_flds_ind.
  - discriminate.
  - intros f k v Hn. destruct v; try reflexivity. cbn in *. now rewrite Hn.
  - intros t IH v Hn. destruct v; try reflexivity. apply IH; auto.
  - intros kd hs ha fs IH v Hn. destruct v; try reflexivity. apply IH; auto.
  - intros vs Hn. destruct vs; reflexivity.
  - intros off f r IH vs Hn. destruct vs as [|[] vs]; try reflexivity. cbn in *.
    apply orb_false_iff in Hn. destruct Hn as [-> Hn]. now apply IH.
  - intros off f r IH vs Hn. destruct vs as [|[] vs]; try reflexivity. cbn in *.
    apply orb_false_iff in Hn. destruct Hn as [-> Hn]. now apply IH.
  - intros t IHt r IH vs Hn. destruct vs as [|v vs]; try reflexivity. cbn in *.
    apply orb_false_iff in Hn. destruct Hn as [Hn1 Hn]. rewrite (IHt v Hn1). now apply IH.
  - intros f lf r IH vs Hn. destruct vs as [|[] vs]; try reflexivity. cbn in *.
    apply orb_false_iff in Hn. destruct Hn as [-> Hn]. now apply IH.
Qed.
Lemma vdrop_p_all dp :
  (forall t, wf_ty t -> forall w a v, obj_at w t a v ->
     vdrop_p dp t a (sp_lay t (vshape v)) w = dropped dp (vgroups t v) w) /\
  (forall fs, wf_flds fs -> forall w a vs cs pos A,
     vok_flds fs vs cs -> flds_place (w_blocks w) fs A a (sp_end fs (map vshape vs) pos) ->
     hdr_in fs A (sp_end fs (map vshape vs) pos) ->
     repr_flds (w_mem w) fs a vs pos ->
     vdrop_flds_p dp fs a (sp_tail fs (map vshape vs) pos) w = dropped dp (vgroups_flds fs vs) w).
Proof.
  apply vty_flds_ind.
  - intros f Hwf w a v (Hv & Hp & Hr). destruct v; try contradiction. cbn [vdrop_p vshape sp_lay vgroups repr vok] in *.
    destruct Hp as (P0 & Pm & PW & Pl). unfold vsize in Pl; cbn [vshape sp_size sp_align] in *.
    rewrite drop_leaf_p_ok by auto. now rewrite Hr.
  - intros f k Hwf w a v Ho. pose proof Ho as (Hv & Hp & Hr). destruct v as [|xs| |]; try contradiction.
    cbn [vdrop_p vshape sp_lay vgroups repr vok] in *.
    destruct (arr_place _ _ _ _ _ Hwf Hp) as (B1 & B2 & B3 & B4).
    rewrite drop_array_p_ok; auto; try tauto.
  - intros t IH Hwf w a v (Hv & Hp & Hr). destruct v as [| |v|]; try contradiction. cbn [vdrop_p vshape sp_lay vgroups].
    destruct (needs_vdrop t) eqn:E.
    + apply IH; auto. split; [exact Hv|split; [exact Hp|exact Hr]].
    + rewrite (proj1 no_groups_all t v E). symmetry. apply dropped_nil.
  - intros kd hs ha fs IH Hwf w a v Ho. pose proof Ho as (Hv & Hp & Hr). destruct v as [| | |vs]; try contradiction.
    cbn [vok repr vdrop_p vgroups] in *. unfold vsize in *; cbn [vshape sp_size sp_lay] in *.
    assert (Hge : hs <= sp_end fs (map vshape vs) hs) by (apply sp_end_ge, Hwf).
    destruct (rec_place kd hs ha fs (w_blocks w) a _ Hwf Hp Hge) as [Hfp Hh].
    assert (G : vdrop_flds_p dp fs a (sp_tail fs (map vshape vs) hs) w = dropped dp (vgroups_flds fs vs) w).
    { eapply IH; eauto. apply Hwf. }
    destruct kd; [|exact G]. destruct (fneeds fs) eqn:E; [exact G|].
    rewrite (proj2 no_groups_all fs vs E). symmetry. apply dropped_nil.
  - intros _ w a vs cs pos A Hv Hp Hh Hr. destruct vs; try contradiction. cbn [vdrop_flds_p map sp_tail vgroups_flds].
    symmetry. apply dropped_nil.
  - intros off f r IH [Hf Hwr] w a vs cs pos A Hv Hp Hh Hr.
    destruct vs as [|[bs| | |] vs]; try contradiction. cbn [vok_flds repr_flds map vshape sp_end sp_tail vdrop_flds_p vgroups_flds] in *.
    destruct (fhdr_place _ (FNormal off f r) off f r A a _ eq_refl Hf ltac:(cbn [sp_falign]; lia) Hp Hh) as (B1 & B2 & B3 & B4 & B5 & B6).
    destruct Hr as [Hr1 Hr2]. rewrite wadd_small by auto.
    apply dropped_app; [rewrite (drop_leaf_p_ok dp f _ w B2 B3 B4); now rewrite Hr1|].
    intros es. apply (IH Hwr (add_log w es) a vs cs pos A); auto. apply Hv.
  - intros off f r IH [Hf Hwr] w a vs cs pos A Hv Hp Hh Hr.
    destruct vs as [|[bs| | |] vs]; try contradiction. cbn [vok_flds repr_flds map vshape sp_end sp_tail vdrop_flds_p vgroups_flds] in *.
    destruct (fhdr_place _ (FLength off f r) off f r A a _ eq_refl Hf ltac:(cbn [sp_falign]; lia) Hp Hh) as (B1 & B2 & B3 & B4 & B5 & B6).
    destruct Hr as [Hr1 Hr2]. rewrite wadd_small by auto.
    apply dropped_app; [rewrite (drop_leaf_p_ok dp f _ w B2 B3 B4); now rewrite Hr1|].
    intros es. apply (IH Hwr (add_log w es) a vs cs pos A); auto. apply Hv.
  - intros t IHt r IH [Hwt Hwr] w a vs cs pos A Hv Hp Hh Hr.
    destruct vs as [|v vs]; try contradiction. cbn [vok_flds repr_flds map sp_tail vdrop_flds_p vgroups_flds] in *.
    destruct (fvar_place _ _ _ _ _ _ _ _ Hwt Hwr Hp) as (B1 & B2 & B3).
    destruct Hr as [Hr1 Hr2]. destruct Hv as [Hv1 Hv2].
    rewrite wadd_small by auto.
    rewrite (dlift_bind _ _ _ _ _ (place_deref t w _ _ Hwt B2 (head_size_le t v Hwt Hv1))).
    apply dropped_app; [apply IHt; auto; split; auto|].
    intros es. apply (IH Hwr (add_log w es) a vs cs _ A); auto.
  - intros f lf r IH (Hf & Hwr) w a vs cs pos A Hv Hp Hh Hr.
    destruct vs as [|[|xs| |] vs]; try contradiction. cbn [vok_flds repr_flds map vshape sp_tail vdrop_flds_p vgroups_flds] in *.
    destruct (farr_place _ _ _ _ _ _ _ _ _ Hf Hwr Hp) as ((B1 & B2 & B3 & B4) & B5).
    destruct Hr as [Hr1 Hr2]. destruct Hv as (Hx & Hn & Hv2).
    apply dropped_app; [exact (drop_array_p_ok dp f a _ xs w Hf Hx B1 B2 B3 B4 Hr1)|].
    intros es. apply (IH Hwr (add_log w es) a vs cs _ A); auto.
Qed.
Lemma owned_drop_p_ok dp t w a v : wf_ty t -> obj_at w t a v -> owned_drop_p dp t a w = dropped dp (vgroups t v) w.
Proof.
  intros Hwf Ho. unfold owned_drop_p. rewrite (dlift_bind _ _ _ _ _ (deref_ok t w a v Hwf Ho)).
  rewrite (dlift_bind _ _ _ _ _ (calc_layout_ok t w a v Hwf Ho)). now apply vdrop_p_all.
Qed.
Lemma vbox_drop_p_ok dp t w a v : wf_ty t -> obj_at w t a v -> In (box_block t a v) (w_blocks w) ->
  vbox_drop_p dp t a w =
    match drop_groups dp (vgroups t v) with
    | (Survives, d) => DOk tt (add_log (set_blocks w (without (w_blocks w) [a]))
                         (map EDrop d ++ [EDealloc a (vsize t v) (sp_align t)]))
    | (Unwinds, d) => DPanic (add_log w (map EDrop d))
    | (Aborts, _) => DAbort
    end.
Proof.
  intros Hwf Ho Hb. unfold vbox_drop_p. rewrite (dlift_bind _ _ _ _ _ (deref_ok t w a v Hwf Ho)).
  rewrite (dlift_bind _ _ _ _ _ (calc_layout_ok t w a v Hwf Ho)).
  unfold dbind. rewrite (proj1 (vdrop_p_all dp) t Hwf w a v Ho). unfold dropped.
  destruct (drop_groups dp (vgroups t v)) as [[] d]; try reflexivity.
  rewrite lay_size_sp by apply Ho. rewrite valign_sp by auto.
  unfold dlift. rewrite dealloc_ok by exact Hb. unfold add_log, set_blocks; cbn. now rewrite app_assoc.
Qed.
Lemma drop_elems_loop_p_ok dp w t it vs n :
  wf_ty t -> iter_at w t it vs -> (length vs < n)%nat ->
  drop_elems_loop_p dp t n it w = dropped dp (concat (map (vgroups t) vs)) w.
Proof.
  intros Hwf. revert w it n; induction vs as [|v vs IH]; intros w it n Ha Hn; (destruct n as [|n]; [cbn in Hn; lia|]); cbn [drop_elems_loop_p].
  - rewrite (dlift_bind _ _ _ _ _ (iter_next_nil w t it Ha)). cbn [fst map concat]. symmetry. apply dropped_nil.
  - destruct (iter_next_cons w t it v vs Hwf Ha) as (it' & E & Ha' & Eit).
    rewrite (dlift_bind _ _ _ _ _ E). cbn [fst snd map concat].
    assert (Ho : obj_at w t (it_ptr it) v) by apply Ha.
    apply dropped_app; [now apply owned_drop_p_ok|].
    intros es. apply (IH _ it' n (iter_log _ _ _ _ _ Ha')). cbn in Hn; lia.
Qed.
Lemma owned_elems_drop_p_ok dp w t it vs :
  wf_ty t -> iter_at w t it vs -> owned_elems_drop_p dp t it w = dropped dp (concat (map (vgroups t) vs)) w.
Proof.
  intros Hwf Ha. unfold owned_elems_drop_p. destruct (core_needs_drop t || needs_vdrop t) eqn:E.
  - apply drop_elems_loop_p_ok; auto. rewrite (proj1 Ha). unfold len. lia.
  - apply orb_false_iff in E. destruct E as [_ E].
    replace (concat (map (vgroups t) vs)) with (@nil (list (list cell))); [symmetry; apply dropped_nil|].
    clear -E. induction vs as [|v vs IH]; [reflexivity|]. cbn [map concat]. now rewrite (proj1 no_groups_all t v E), <- IH.
Qed.
(** drop(seq.take_elems()): whatever happens, the sequence is empty afterwards. *)
Lemma drain_p_ok dp w t chk s vs :
  wf_ty t -> wf_blocks (w_blocks w) -> seq_at w t chk s vs ->
  exists w1, same_world w w1 /\ seq_at w1 t chk (mkS (s_ptr s) 0 0 (s_cap s)) [] /\
    drain_p dp t chk (w, s) =
      match drop_groups dp (concat (map (vgroups t) vs)) with
      | (Survives, d) => DOk tt (add_log w1 (map EDrop d), mkS (s_ptr s) 0 0 (s_cap s))
      | (Unwinds, d) => DPanic (add_log w1 (map EDrop d), mkS (s_ptr s) 0 0 (s_cap s))
      | (Aborts, _) => DAbort
      end.
Proof.
  intros Hwf Hbl Hat. destruct (take_elems_ok w t chk s vs Hwf Hbl Hat) as (w1 & it & E1 & Hs & Hit & _ & Hat1).
  exists w1. split; [exact Hs|]. split; [exact Hat1|]. unfold drain_p. rewrite (dlift_bind _ _ _ _ _ E1).
  unfold dlft. rewrite (owned_elems_drop_p_ok dp w1 t it vs Hwf Hit). unfold dropped.
  destruct (drop_groups dp _) as [[] d]; reflexivity.
Qed.
Lemma seq_drop_p_ok dp w t chk s vs :
  wf_ty t -> wf_blocks (w_blocks w) -> seq_at w t chk s vs ->
  match drop_groups dp (concat (map (vgroups t) vs)) with
  | (Survives, d) => exists w' s', seq_drop_p dp t chk (w, s) = DOk tt (w', s') /\
      upd w w' 0 0 (seq_base s) (map EDrop d ++ seq_free t chk s)
  | (Unwinds, d) => exists w' s', seq_drop_p dp t chk (w, s) = DPanic (w', s') /\ upd w w' 0 0 [] (map EDrop d)
  | (Aborts, _) => seq_drop_p dp t chk (w, s) = DAbort
  end.
Proof.
  intros Hwf Hbl Hat. set (k := s <~ dlift get_sq ;;
    size <~ dlift (pmul (s_cap s) (valign t)) ;;
    full <~ dlift (lft (extended_size chk size (valign t))) ;;
    dlift (lft (dealloc (s_ptr s) full (valign t)))).
  assert (E0 : seq_drop_p dp t chk (w, s) = (if s_cap s =? 0 then dret tt else drain_p dp t chk ~;; k) (w, s)) by reflexivity.
  rewrite E0. unfold seq_base, seq_free.
  destruct (N.eqb_spec (s_cap s) 0) as [E|E].
  - destruct Hat as (_ & _ & _ & [[_ ->]|(B1 & _)]); [|lia]. cbn. exists w, s. split; [reflexivity|].
    repeat split; auto; [now rewrite without_nil|now rewrite app_nil_r].
  - destruct (drain_p_ok dp w t chk s vs Hwf Hbl Hat) as (w1 & Hs & Hat1 & Ed). unfold dbind. rewrite Ed. unfold k. clear k E0.
    set (s1 := mkS (s_ptr s) 0 0 (s_cap s)) in *.
    destruct Hs as (H1 & H2 & H3 & H4 & H5).
    destruct (drop_groups dp (concat (map (vgroups t) vs))) as [[] d]; [| |reflexivity].
    + unfold dbind at 1, dlift at 1, get_sq at 1. set (w2 := add_log w1 _).
      destruct Hat as (_ & _ & _ & [[E2 _]|(B1 & B2 & B3 & B4 & B5 & B6)]); [lia|].
      assert (HcW : s_cap s * sp_align t < W) by (unfold storage_bytes in B3; rewrite ISIZE_eq in B3; rewrite W_eq; lia).
      unfold pmul. cbn [s1 s_cap s_ptr]. rewrite (valign_sp t Hwf). destruct (N.ltb_spec (s_cap s * sp_align t) W); [|lia].
      unfold dbind at 1, dlift at 1, ret at 1.
      rewrite (dlift_bind _ _ _ _ _ (lft_ok _ _ s1 _ _ (extended_ok t chk w2 (s_cap s) Hwf B3))).
      assert (Hin : In (mkB (s_ptr s) (storage_bytes t chk (s_cap s)) (sp_align t) true) (w_blocks w2)).
      { unfold w2. cbn. rewrite H2. exact B2. }
      rewrite (dlift_ok _ _ _ _ (lft_ok _ _ s1 _ _ (dealloc_ok w2 _ _ _ Hin))).
      eexists _, s1. split; [reflexivity|]. unfold w2. repeat split; cbn [add_log set_blocks w_mem w_blocks w_alloc w_tick w_log]; auto.
      * intros x _. apply H1.
      * now rewrite H2.
      * rewrite H5, app_assoc. reflexivity.
    + eexists _, s1. split; [reflexivity|]. repeat split; cbn [add_log w_mem w_blocks w_alloc w_tick w_log]; auto.
      * intros x _. apply H1.
      * now rewrite without_nil.
      * now rewrite H5.
Qed.

Lemma assign_p_ok dp t w a v p f new :
  wf_ty t -> obj_at w t a v -> mut_leaf t p = Some f -> len new = f_size f ->
  match leaf v p with
  | None => assign_p dp t a p new w = DPanic w
  | Some old => exists w' o, o + f_size f <= vsize t v /\
      assign_p dp t a p new w = (if f_drop f && dp old then DPanic w' else DOk tt w') /\
      upd w w' (a + o) (f_size f) [] (drop_events f [old]) /\
      obj_at w' t a (put v p new) /\ vshape (put v p new) = vshape v
  end.
Proof.
  intros Hwf Ho Hm Hn. pose proof (proj1 locate_all t Hwf w a v p f Ho Hm) as H. unfold loc_ok in H.
  pose proof (assign_ok t w a v p f new Hwf Ho Hm Hn) as HA.
  destruct (leaf v p) as [old|]; unfold assign_p; [|unfold dbind, dlift; now rewrite H].
  destruct HA as (w' & o' & EA & Hle & U & _ & Ho' & Hsh). exists w', o'.
  destruct H as (o & E & A1 & A2 & A3 & A4 & _). destruct Ho as (Hv & (P0 & Pm & PW & Pl) & Hr).
  unfold assign in EA. rewrite (bind_ok _ _ _ _ _ E) in EA. cbn [fst snd] in EA.
  rewrite (dlift_bind _ _ _ _ _ E). cbn [fst snd]. assert (Hl : live (w_blocks w) (a + o) (f_size f)) by (eapply live_sub; eauto).
  rewrite (bind_ok _ _ _ _ _ (drop_leaf_ok f (a + o) w ltac:(lia) A3 Hl)), A4 in EA.
  split; [exact Hle|]. split; [|auto].
  unfold dbind, dunwind. rewrite (drop_leaf_p_ok dp f (a + o) w ltac:(lia) A3 Hl), A4.
  unfold drop_events in EA. destruct (f_drop f); cbn [andb].
  - unfold dropped. cbn [drop_groups]. unfold panics. cbn [filter map]. destruct (dp old); cbn [length app map]; unfold dlift; cbn [map] in EA; now rewrite EA.
  - rewrite dropped_nil. rewrite add_log_nil in EA. unfold dlift. now rewrite EA.
Qed.

(** ** one operation of a program *)
Definition step_ok_p (dp : list cell -> bool) (σ : list aval) (o : op) (w : world) (r : outcome) (w' : world) (sl' : list slot) (n' : nat) : Prop :=
  exists σ' evs, astep_p dp σ o r σ' (drops_of evs) /\ w_log w' = w_log w ++ evs /\ Inv w' sl' σ' n'.
Definition step_res_p (dp : list cell -> bool) (σ : list aval) (o : op) (w : world) (n : nat) (r : dres config out) : Prop :=
  match r with
  | DOk x (w', sl') => step_ok_p dp σ o w (Done x) w' sl' (given_up o n)
  | DPanic (w', sl') => step_ok_p dp σ o w Panicked w' sl' (leaks o n)
  | DAbort => aborts dp σ o
  | DUB u => u = UNull /\ refused_box w σ o
  end.
Lemma inv_more w sl σ n n' : Inv w sl σ n -> (n <= n')%nat -> Inv w sl σ n'.
Proof. intros (A & B & C & E & L & HL & F) H. repeat (split; [assumption|]). exists L. split; [lia|exact F]. Qed.
(** Value number [h0] is given up, but its storage stays allocated. *)
Lemma inv_abandon w sl σ n w' h0 s0 v0 :
  Inv w sl σ n -> at_h sl σ h0 s0 v0 -> w_blocks w' = w_blocks w -> untouched w w' [] -> (length (hbases s0 v0) <= 1)%nat ->
  Inv w' (kill sl [h0]) (kill_vals σ [h0]) (S n).
Proof.
  intros HI Ha Hb Hu Hl. apply (inv_step w sl σ n w' (kill sl [h0]) (kill_vals σ [h0]) (S n) [] h0 (hbases s0 v0) HI).
  - rewrite Hb. apply HI.
  - exact Hu.
  - apply kill_lens, HI.
  - intros h s v Hh. destruct (at_h_kill _ _ _ _ _ _ Hh) as [[H0 _]|(_ & -> & ->)].
    + left. split; [exact H0|]. intros x _ [].
    + right. split; [exact I|]. left. reflexivity.
  - lia.
  - intros b Hin Hh. rewrite Hb in Hin. destruct (in_dec N.eq_dec (b_base b) (hbases s0 v0)) as [Hy|Hn]; [left; exact Hy|].
    right. right. split; [exact Hin|]. intros h s v Hh' Hx. apply at_h_keep; [exact Hh'|].
    intros [<-|[]]. destruct (at_h_fun _ _ _ _ _ _ _ Hh' Ha) as [-> ->]. contradiction.
Qed.
Lemma same_untouched w w' D : w_blocks w' = w_blocks w -> (forall x, w_mem w' x = w_mem w x) -> untouched w w' D.
Proof. intros H1 H2 b Hb _. rewrite H1. split; [exact Hb|]. intros x _. apply H2. Qed.
Lemma hbases_one s v : (length (hbases s v) <= 1)%nat.
Proof.
  unfold hbases. destruct s as [t a|t a|t c s|], v as [t' x|t' x|t' c' vs old|]; cbn [hblocks map length]; try lia.
  - destruct (vsize t x =? 0); cbn; lia.
  - destruct (s_cap s =? 0); cbn; lia.
Qed.

Lemma step_drop_p dp w sl σ n h : Inv w sl σ n -> allowed σ (ODrop h) -> step_res_p dp σ (ODrop h) w n (exec_p dp (ODrop h) (w, sl)).
Proof.
  intros HI Hal. inversion Hal as [| | | |? v Hv Hnd| | | | | | | | | | | | | | | | |]; subst. pose proof HI as (Hbl & _).
  destruct (at_h_vals w sl σ n h v HI Hv) as (s & Hah & Hrep).
  pose proof (groups_prefix dp (groups_of v)) as HG. rewrite groups_owned in HG.
  assert (Hdone : forall w' evs, drops_of evs = owned_drops v -> existsb dp (owned_drops v) = false ->
     w_log w' = w_log w ++ evs -> Inv w' (kill sl [h]) (kill_vals σ [h]) n ->
     step_ok_p dp σ (ODrop h) w (Done OutUnit) w' (kill sl [h]) n).
  { intros w' evs E1 E2 E3 E4. exists (kill_vals σ [h]), evs. rewrite E1. split; [|auto]. apply P_calm; [now apply A_drop|exact E2]. }
  assert (Hpan : forall w' d, drop_groups dp (groups_of v) = (Unwinds, d) ->
     w_log w' = w_log w ++ map EDrop d -> w_blocks w' = w_blocks w -> (forall x, w_mem w' x = w_mem w x) ->
     step_ok_p dp σ (ODrop h) w Panicked w' (kill sl [h]) (S n)).
  { intros w' d E1 E2 E3 E4. exists (kill_vals σ [h]), (map EDrop d). rewrite drops_map. split; [now apply P_drop with v|]. split; [exact E2|].
    apply (inv_abandon w sl σ n w' h s v HI Hah E3); [now apply same_untouched|apply hbases_one]. }
  pose proof (step_drop w sl σ n h HI Hal) as HS.
  cbn [exec_p]. rewrite (proj1 Hah). cbn [exec] in HS. rewrite (proj1 Hah) in HS.
  destruct s as [t a|t a|t c s|], v as [t' x|t' x|t' c' vs old|]; cbn [rep] in Hrep; try contradiction.
  - destruct Hrep as (<- & Hwf & Ho & Hb). unfold call in HS. rewrite (vbox_drop_ok t w a x Hwf Ho Hb) in HS. cbn [fst snd step_res] in HS.
    destruct HS as (σ1 & evs & A1 & L1 & I1). unfold call_p. rewrite (vbox_drop_p_ok dp t w a x Hwf Ho Hb).
    cbn [groups_of owned_drops] in *.
    destruct (drop_groups dp (vgroups t x)) as [[] d] eqn:Eg; cbn [fst snd step_res_p leaks].
    + destruct HG as [-> HG].
      assert (Eσ : σ1 = kill_vals σ [h]) by (inversion A1; reflexivity). subst σ1.
      apply Hdone with (evs := map EDrop (vdrops t x) ++ [EDealloc a (vsize t x) (sp_align t)]); auto.
      rewrite drops_app, drops_map. cbn. now rewrite app_nil_r.
    + apply (Hpan _ d); auto.
    + apply B_drop with (ABox t x); [exact Hv|]. cbn [groups_of]. now rewrite Eg.
  - destruct Hrep as (<- & Hwf & Ho & Hb). unfold call in HS. rewrite (owned_drop_ok t w a x Hwf Ho) in HS. cbn [fst snd step_res] in HS.
    destruct HS as (σ1 & evs & A1 & L1 & I1). unfold call_p. rewrite (owned_drop_p_ok dp t w a x Hwf Ho). unfold dropped.
    cbn [groups_of owned_drops] in *.
    destruct (drop_groups dp (vgroups t x)) as [[] d] eqn:Eg; cbn [fst snd step_res_p leaks].
    + destruct HG as [-> HG].
      assert (Eσ : σ1 = kill_vals σ [h]) by (inversion A1; reflexivity). subst σ1.
      apply Hdone with (evs := map EDrop (vdrops t x)); auto. now rewrite drops_map.
    + apply (Hpan _ d); auto.
    + apply B_drop with (AOwn t x); [exact Hv|]. cbn [groups_of]. now rewrite Eg.
  - destruct Hrep as ((<- & <- & Hwf & Hz) & Hat & Hb). unfold call_seq_p. cbn [groups_of owned_drops] in *.
    pose proof (seq_drop_p_ok dp w t c s vs Hwf Hbl Hat) as HP.
    assert (Hbase : hbases (SSeq t c s) (ASeq t c vs old) = seq_base s) by (apply hbases_seq; eauto).
    destruct (drop_groups dp (concat (map (vgroups t) vs))) as [[] d] eqn:Eg.
    + destruct HP as (w' & s' & E & U). destruct HG as [-> HG]. rewrite E. cbn [fst snd step_res_p].
      apply Hdone with (evs := map EDrop (concat (map (vdrops t) vs)) ++ seq_free t c s); auto.
      * rewrite drops_app, drops_map.
        replace (drops_of (seq_free t c s)) with (@nil (list cell)) by (unfold seq_free; destruct (s_cap s =? 0); reflexivity).
        now rewrite app_nil_r.
      * apply (upd_log_eq _ _ _ _ _ _ U).
      * apply (inv_drop w sl σ n _ h (SSeq t c s) (ASeq t c vs old)); auto; rewrite ?Hbase.
        -- eapply upd_wf; eauto.
        -- eapply untouched_upd0; [exact U|apply incl_refl].
        -- intros b Hbb _. rewrite (upd_blocks _ _ _ _ _ _ U) in Hbb. now apply in_without in Hbb.
    + destruct HP as (w' & s' & E & U). rewrite E. cbn [fst snd step_res_p leaks].
      apply (Hpan _ d); auto.
      * apply (upd_log_eq _ _ _ _ _ _ U).
      * rewrite (upd_blocks _ _ _ _ _ _ U). apply without_nil.
      * intros x. apply (upd_mem _ _ _ _ _ _ U). lia.
    + rewrite HP. cbn [step_res_p]. apply B_drop with (ASeq t c vs old); [exact Hv|]. cbn [groups_of]. now rewrite Eg.
Qed.
Lemma step_drain_p dp w sl σ n h : Inv w sl σ n -> allowed σ (ODrain h) -> step_res_p dp σ (ODrain h) w n (exec_p dp (ODrain h) (w, sl)).
Proof.
  intros HI Hal. inversion Hal as [| | | | | | |? t chk vs old Hh| | | | | | | | | | | | | |]; subst. pose proof HI as (Hbl & _).
  destruct (seq_slot w sl σ n h t chk vs old HI Hh) as (s & Hah & Hwf & Hz & Hat & Hbits).
  pose proof (groups_prefix dp (groups_of (ASeq t chk vs old))) as HG. rewrite groups_owned in HG.
  pose proof (step_drain w sl σ n h HI Hal) as HS. cbn [exec] in HS. rewrite (proj1 Hah) in HS. unfold call_seq in HS.
  destruct (take_elems_ok w t chk s vs Hwf Hbl Hat) as (w1 & it & E1 & Hs & Hit & _ & Hat1).
  rewrite (bind_ok _ _ _ _ _ E1) in HS.
  rewrite (lft_ok _ _ (mkS (s_ptr s) 0 0 (s_cap s)) _ _ (owned_elems_drop_ok w1 t it vs Hwf Hit)) in HS. cbn [fst snd step_res] in HS.
  destruct HS as (σ1 & evs & A1 & L1 & I1).
  assert (Eσ : σ1 = replace_nth σ h (ASeq t chk [] (old ++ starts t vs 0 ++ [total t vs]))).
  { inversion A1; subst. match goal with A : nth_error σ h = Some (ASeq ?t' _ _ _) |- _ => rewrite Hh in A; injection A; intros; subst end. reflexivity. }
  assert (HI' : forall d, Inv (add_log w1 d) (update sl h (SSeq t chk (mkS (s_ptr s) 0 0 (s_cap s)))) σ1 n).
  { intros d. apply (inv_log _ _ _ _ d). revert I1. generalize (map EDrop (all_drops t vs)). intros l I1.
    destruct I1 as (B1 & B2 & B3 & B4 & B5). repeat (split; [assumption|]). exact B5. }
  cbn [exec_p]. rewrite (proj1 Hah). unfold call_seq_p, drain_p. rewrite (dlift_bind _ _ _ _ _ E1). unfold dlft.
  rewrite (owned_elems_drop_p_ok dp w1 t it vs Hwf Hit). unfold dropped.
  destruct (drop_groups dp (concat (map (vgroups t) vs))) as [[] d] eqn:Eg; cbn [groups_of owned_drops] in HG; rewrite Eg in HG;
    cbn [fst snd step_res_p leaks].
  - destruct HG as [-> HG]. exists σ1, (map EDrop (concat (map (vdrops t) vs))). rewrite drops_map. split; [|split; [|apply HI']].
    + apply P_calm; [|exact HG]. subst σ1. now apply A_drain.
    + cbn [add_log w_log]. destruct Hs as (_ & _ & _ & _ & ->). reflexivity.
  - exists σ1, (map EDrop d). rewrite drops_map. split; [|split; [|apply HI']].
    + subst σ1. now apply P_drain.
    + cbn [add_log w_log]. destruct Hs as (_ & _ & _ & _ & ->). reflexivity.
  - apply B_drain with (ASeq t chk vs old); [exact Hh|]. cbn [groups_of]. now rewrite Eg.
Qed.
Lemma step_assign_p dp w sl σ n pl q new : Inv w sl σ n -> allowed σ (OAssign pl q new) ->
  step_res_p dp σ (OAssign pl q new) w n (exec_p dp (OAssign pl q new) (w, sl)).
Proof.
  intros HI Hal. inversion Hal as [| | | | |? ? ? t v f Hp Hml Hl| | | | | | | | | | | | | | | |]; subst. pose proof HI as (Hbl & _ & Hrep & _).
  destruct (resolve_ok w sl σ n pl t v HI Hp) as (a & s0 & v0 & E & Hwf & Ho & Hah & Hst & Hput).
  cbn [exec_p]. unfold call_p. rewrite (dlift_bind _ _ _ _ _ E). cbn [fst snd].
  pose proof (assign_p_ok dp t w a v q f new Hwf Ho Hml Hl) as HA. destruct (leaf v q) as [b|] eqn:El.
  - destruct HA as (w' & o & Hle & E1 & U & Ho' & Hsh). rewrite E1.
    pose proof (upd_blocks _ _ _ _ _ _ U) as Ub. rewrite without_nil in Ub.
    assert (Hm : same_outside (w_mem w) (w_mem w') a (vsize t v)) by (intros x Hx; apply (upd_mem _ _ _ _ _ _ U); lia).
    destruct (Hput w' (put v q new) Ub Hm Ho' Hsh) as (v1 & Ep & Hr1 & Hb1).
    assert (HI' : Inv w' sl (put_place σ pl (put v q new)) n).
    { rewrite Ep. apply (inv_inplace w sl σ n w' _ s0 v0 v1); auto. eapply storage_untouched; eauto. }
    assert (Ed : drops_of (drop_events f [b]) = if f_drop f then [b] else []) by (unfold drop_events; destruct (f_drop f); reflexivity).
    destruct (f_drop f && dp b) eqn:Eb; cbn [fst snd step_res_p leaks]; exists (put_place σ pl (put v q new)), (drop_events f [b]); rewrite Ed;
      (split; [|split; [apply (upd_log_eq _ _ _ _ _ _ U)|exact HI']]).
    + apply andb_true_iff in Eb. destruct Eb as [Ef Eb]. rewrite Ef. eapply P_assign; eauto.
    + apply P_calm; [eapply A_assign; eauto|]. destruct (f_drop f); [|reflexivity]. cbn in *. now rewrite Eb.
  - rewrite HA. cbn [step_res_p leaks]. exists σ, []. split; [apply P_calm; [eapply A_assign_range; eauto|reflexivity]|].
    split; [now rewrite app_nil_r|]. exact HI.
Qed.
(** ** try_set_layout_controllers *)
Lemma ctrls_calm dp fl : forall cs, (forall j, ctrl_panics dp fl cs j = false) -> existsb dp (drops_of (ctrl_drops fl cs)) = false.
Proof.
  induction fl as [|f fl IH]; intros [|c cs] H; try reflexivity. cbn [ctrl_drops].
  rewrite drops_app, existsb_app, (IH cs) by (intros j; exact (H (S j))). rewrite orb_false_r.
  pose proof (H 0%nat) as H0. unfold ctrl_panics in H0. cbn [nth_error] in H0. unfold drop_events. destruct (f_drop f); [|reflexivity].
  cbn in *. now rewrite H0.
Qed.
Lemma try_set_p_cases hs ha fs w a vs dp news :
  let t := TRec KStruct hs ha fs in
  wf_ty t -> obj_at w t a (VRec vs) -> ctrls_ok fs news ->
  let d := drops_of (ctrl_drops (ctrl_types fs) news) in
  (~ lengths_eval fs news /\
   try_set_p dp fs a news w = if existsb dp d then DAbort else DPanic (add_log w (ctrl_drops (ctrl_types fs) news))) \/
  (lengths_eval fs news /\ ~ same_lengths fs (vctrls fs vs) news /\
   try_set_p dp fs a news w =
     match panics dp d with
     | O => DOk false (add_log w (ctrl_drops (ctrl_types fs) news))
     | S O => DPanic (add_log w (ctrl_drops (ctrl_types fs) news))
     | _ => DAbort
     end) \/
  (lengths_eval fs news /\ same_lengths fs (vctrls fs vs) news /\ exists w' (k : nat), (k <= length news)%nat /\
    repr_flds (w_mem w') fs a (with_ctrls fs vs (mixed k news (vctrls fs vs))) hs /\
    outside_ctrls fs a (w_mem w) (w_mem w') /\ w_blocks w' = w_blocks w /\
    ((k = length news /\ try_set_p dp fs a news w = DOk true w' /\
      w_log w' = w_log w ++ ctrl_drops (ctrl_types fs) (vctrls fs vs) /\
      (forall j, ctrl_panics dp (ctrl_types fs) (vctrls fs vs) j = false)) \/
     (first_panic dp (ctrl_types fs) (vctrls fs vs) k /\
      w_log w' = w_log w ++ ctrl_drops (firstn k (ctrl_types fs)) (vctrls fs vs) ++
                            ctrl_drops (skipn k (ctrl_types fs)) (skipn k news) /\
      try_set_p dp fs a news w =
        if existsb dp (drops_of (ctrl_drops (skipn k (ctrl_types fs)) (skipn k news))) then DAbort else DPanic w'))).
Proof.
  intros t Hwf Ho Hn d. pose proof Ho as (Hv & Hp & Hr).
  assert (Hge : hs <= sp_end fs (map vshape vs) hs) by (apply sp_end_ge, Hwf).
  destruct (rec_place KStruct hs ha fs (w_blocks w) a _ Hwf Hp Hge) as [Hfp Hh].
  destruct Hwf as ((Q1 & Q2 & Q3 & Q4 & Q5) & Q6 & Q7).
  assert (Hh' : hdr_in fs (sp_align t) hs).
  { intros off g Hin. destruct (Q4 off g Hin) as (A1 & A2 & A3). repeat split; auto. unfold t; cbn [sp_align]. lia. }
  unfold try_set_p. cbn [vok repr] in Hv, Hr.
  rewrite (dlift_bind _ _ _ _ _ (load_ctrls_ok fs w a _ _ vs _ hs Q6 Hfp Hh Hv Hr)).
  assert (Ed : drop_values_p dp (combine (map snd (ctrl_fields fs)) news) w =
     match panics dp d with
     | O => DOk tt (add_log w (ctrl_drops (ctrl_types fs) news))
     | S O => DPanic (add_log w (ctrl_drops (ctrl_types fs) news))
     | _ => DAbort
     end) by (rewrite <- ctrl_types_eq; apply drop_values_p_ok).
  destruct (lengths_eval_dec fs news) as [Hz|Hz].
  2:{ left. split; [exact Hz|]. unfold dbind, dunwind, dlift.
      rewrite (compare_panic fs (vctrls fs vs) news w (vok_lengths fs vs _ Hv) Hz), Ed.
      destruct (panics dp d) as [|k] eqn:Ep.
      - apply panics_none in Ep. now rewrite Ep.
      - destruct (existsb dp d) eqn:Ee; [|apply panics_none in Ee; congruence]. destruct k; reflexivity. }
  right.
  assert (Ev : forall c, dunwind (dlift (mapM (fun lf : list (list cell) -> N => x <- len_call (lf (vctrls fs vs)) ;; y <- len_call (lf news) ;; ret (x =? y)) (len_fns fs))) c w =
     DOk (map (fun lf => lf (vctrls fs vs) =? lf news) (len_fns fs)) w).
  { intros c. unfold dunwind, dlift. now rewrite (compare_ok fs (vctrls fs vs) news w (vok_lengths fs vs _ Hv) Hz). }
  rewrite (dbind_ok _ _ _ _ _ (Ev _)). clear Ev.
  replace (forallb (fun b : bool => b) (map (fun lf => lf (vctrls fs vs) =? lf news) (len_fns fs)))
    with (forallb (fun lf => lf (vctrls fs vs) =? lf news) (len_fns fs)) by (induction (len_fns fs) as [|lf l IHl]; cbn; congruence).
  destruct (forallb (fun lf => lf (vctrls fs vs) =? lf news) (len_fns fs)) eqn:E.
  - right. split; [exact Hz|]. split; [now apply same_lengths_test|].
    destruct (set_ctrls_ok dp fs Q6 Q5 w a vs _ hs _ hs news (N.le_refl _) Hh' Hv Hn Hfp Hr)
      as (w' & k & Hk & R' & O' & B' & A' & T' & H).
    exists w', k. repeat (split; [auto|]). destruct H as [(-> & E1 & L & F & Q)|(Hd & E1 & L & F & Q)].
    + left. split; [auto|]. split; [unfold dbind; now rewrite Q|auto].
    + right. split; [auto|]. split; [exact L|]. unfold dbind. rewrite Q. destruct (existsb _ _); reflexivity.
  - left. split; [exact Hz|]. split.
    + intros H. apply same_lengths_test in H. congruence.
    + unfold dbind. rewrite Ed. destruct (panics dp d) as [|[|k]]; reflexivity.
Qed.
Lemma step_controllers_p dp w sl σ n pl news : Inv w sl σ n -> allowed_p dp σ (OControllers pl news) ->
  step_res_p dp σ (OControllers pl news) w n (exec_p dp (OControllers pl news) (w, sl)).
Proof.
  intros HI [Hal Hmix]. inversion Hal as [| | | | | |? ? hs ha fs vs Hp Hn| | | | | | | | | | | | | | |]; subst. pose proof HI as (Hbl & _ & Hrep & _).
  destruct (resolve_ok w sl σ n pl _ _ HI Hp) as (a & s0 & v0 & E & Hwf & Ho & Hah & Hst & Hput).
  cbn [exec_p]. unfold call_p. rewrite (dlift_bind _ _ _ _ _ E). cbn [fst snd].
  assert (Hlog : forall evs, Inv (add_log w evs) sl σ n) by (intros; now apply inv_log).
  destruct (try_set_p_cases hs ha fs w a vs dp news Hwf Ho Hn) as [[Hze E1]|[(Hze & Hns & E1)|(Hze & Hs & w1 & k & Hk & Hr & Hout & Hb & HE)]].
  - rewrite E1. destruct (existsb dp _) eqn:Ed; cbn [step_res_p].
    + eapply B_construct; [exact I|eapply A_controllers_panic; eauto|exact Ed].
    + exists σ, (ctrl_drops (ctrl_types fs) news). split; [|split; [reflexivity|apply Hlog]]. apply P_calm; [eapply A_controllers_panic; eauto|exact Ed].
  - rewrite E1. destruct (panics dp _) as [|[|k]] eqn:Ed; cbn [step_res_p fst snd].
    + exists σ, (ctrl_drops (ctrl_types fs) news). split; [|split; [reflexivity|apply Hlog]]. apply P_calm; [eapply A_controllers_mismatch; eauto|]. now apply panics_none.
    + exists σ, (ctrl_drops (ctrl_types fs) news). split; [|split; [reflexivity|apply Hlog]]. eapply P_controllers_mismatch; eauto.
    + eapply B_ctrl_mismatch; eauto. rewrite Ed. lia.
  - pose proof Ho as (Hv & Hpl & _).
    assert (HI' : same_lengths fs (vctrls fs vs) (mixed k news (vctrls fs vs)) ->
       Inv w1 sl (put_place σ pl (VRec (with_ctrls fs vs (mixed k news (vctrls fs vs))))) n).
    { intros Hsm.
      assert (Hm : ctrls_ok fs (mixed k news (vctrls fs vs))) by (apply ctrls_ok_mixed; [exact Hn|eapply vctrls_ok; exact Hv]).
      destruct (with_ctrls_ok fs vs _ _ _ Hv Hm Hsm) as (C1 & C2 & C3).
      set (vs' := with_ctrls fs vs (mixed k news (vctrls fs vs))) in *.
      assert (Hsh : vshape (VRec vs') = vshape (VRec vs)) by (cbn [vshape]; now rewrite C2).
      assert (Ho' : obj_at w1 (TRec KStruct hs ha fs) a (VRec vs')).
      { split; [cbn [vok]; now rewrite C3|]. split; [unfold vsize; rewrite Hsh, Hb; exact Hpl|exact Hr]. }
      assert (Hmem : same_outside (w_mem w) (w_mem w1) a (vsize (TRec KStruct hs ha fs) (VRec vs))).
      { intros x Hx. apply Hout. intros off f Hin. pose proof Hwf as ((_ & _ & _ & Hh & _) & _).
        destruct (Hh off f (ctrl_in_head fs off f Hin)) as (_ & H & _).
        pose proof (head_size_le (TRec KStruct hs ha fs) (VRec vs) Hwf (proj1 Ho)) as Hle. cbn [head_size] in Hle. lia. }
      destruct (Hput w1 (VRec vs') Hb Hmem Ho' Hsh) as (v1 & Ep & Hr1 & Hb1).
      rewrite Ep. apply (inv_inplace w sl σ n w1 _ s0 v0 v1); auto. eapply storage_untouched; eauto. }
    destruct HE as [(-> & E1 & L & F)|((j & -> & F1 & F2) & L & E1)]; rewrite E1.
    + cbn [step_res_p fst snd].
      assert (Em : mixed (length news) news (vctrls fs vs) = news).
      { unfold mixed. rewrite firstn_all. rewrite skipn_all2; [apply app_nil_r|].
        pose proof (vctrls_ok fs vs _ Hv) as Hvc. pose proof (Forall2_len _ _ _ Hn). pose proof (Forall2_len _ _ _ Hvc). lia. }
      rewrite Em in HI'. exists (put_place σ pl (VRec (with_ctrls fs vs news))), (ctrl_drops (ctrl_types fs) (vctrls fs vs)).
      split; [|split; [exact L|now apply HI']]. apply P_calm; [eapply A_controllers; eauto|]. now apply ctrls_calm.
    + assert (Hfb : first_bad dp fs (vctrls fs vs) j) by (split; assumption).
      destruct (existsb dp (drops_of (ctrl_drops (skipn (S j) (ctrl_types fs)) (skipn (S j) news)))) eqn:Ee; cbn [step_res_p].
      * eapply B_ctrl; eauto.
      * eexists _, _. split; [|split; [exact L|apply HI'; exact (Hmix _ _ _ _ _ Hp Hs Hfb)]].
        rewrite drops_app. eapply P_controllers; eauto.
Qed.

(** ** take_elems *)
Definition fated (r : fate * list (list cell)) (w : world) : dres world unit :=
  match r with
  | (Survives, d) => DOk tt (add_log w (map EDrop d))
  | (Unwinds, d) => DPanic (add_log w (map EDrop d))
  | (Aborts, _) => DAbort
  end.
Lemma holds_log w t lo it l hd evs : Forall2 (holds w t lo it) l hd -> Forall2 (holds (add_log w evs) t lo it) l hd.
Proof. intros H. induction H as [|x y l hd H _ IH]; constructor; auto. Qed.
Lemma drop_held_p_ok dp t lo it l : wf_ty t -> forall hd w, Forall2 (holds w t lo it) l hd ->
  drop_held_p dp t l w = fated (drop_all dp (hd_groups t hd)) w.
Proof.
  intros Hwf. induction l as [|x l IH]; intros hd w HF; inversion HF as [|? y ? hd' H HF']; subst.
  - cbn. now rewrite add_log_nil.
  - unfold hd_groups. cbn [map drop_all drop_held_p]. fold (hd_groups t hd'). destruct x as [a|], y as [v|]; cbn [holds] in H; try contradiction.
    + unfold dbind, dunwind. rewrite (owned_drop_p_ok dp t w a v Hwf (proj1 H)). unfold dropped.
      destruct (drop_groups dp (vgroups t v)) as [[] d1].
      * rewrite (IH hd' _ (holds_log _ _ _ _ _ _ _ HF')). destruct (drop_all dp (hd_groups t hd')) as [[] d2]; cbn [fated]; rewrite ?add_log_app, ?map_app; reflexivity.
      * rewrite (IH hd' _ (holds_log _ _ _ _ _ _ _ HF')). destruct (drop_all dp (hd_groups t hd')) as [[] d2]; cbn [fated]; rewrite ?add_log_app, ?map_app; reflexivity.
      * reflexivity.
    + rewrite (IH hd' w HF'). cbn [drop_groups]. destruct (drop_all dp (hd_groups t hd')) as [[] d2]; reflexivity.
Qed.
Lemma take_end_p_ok dp t lo hi keep w it rest l hd : wf_ty t -> taken w t lo hi it rest l hd ->
  take_end_p dp t keep (it, l) w = fated (drop_end dp t keep hd rest) w.
Proof.
  intros Hwf (Hit & _ & _ & HF & _). unfold take_end_p, drop_end. cbn [fst snd]. unfold dbind, dunwind.
  rewrite (drop_held_p_ok dp t lo it l Hwf hd w HF).
  assert (He : forall evs, owned_elems_drop_p dp t it (add_log w evs) = fated (drop_groups dp (concat (map (vgroups t) rest))) (add_log w evs)).
  { intros evs. rewrite (owned_elems_drop_p_ok dp (add_log w evs) t it rest Hwf (iter_log _ _ _ _ _ Hit)). reflexivity. }
  destruct (drop_all dp (hd_groups t hd)) as [[] d1]; cbn [fated].
  - destruct keep; [reflexivity|]. rewrite He. destruct (drop_groups dp (concat (map (vgroups t) rest))) as [[] d2]; cbn [fated fst snd]; rewrite ?add_log_app, ?map_app; reflexivity.
  - rewrite He. destruct (drop_groups dp (concat (map (vgroups t) rest))) as [[] d2]; cbn [fated fst snd]; rewrite ?add_log_app, ?map_app; reflexivity.
  - reflexivity.
Qed.
Definition take_res_p (t : vty) (lo hi : N) (w : world) (r : dres (world * tstate) (list out)) (e : option tres) : Prop :=
  match r, e with
  | DOk outs (w', (it', l')), Some (TDone outs' rest' hd' d) => outs = outs' /\ taken w' t lo hi it' rest' l' hd' /\ took w w' lo hi d
  | DPanic (w', (it', l')), Some (TPanic rest' hd' d) => taken w' t lo hi it' rest' l' hd' /\ took w w' lo hi d
  | DAbort, None => True
  | _, Some TBad => True
  | _, _ => False
  end.
Lemma bad_take_p t lo hi w r : take_res_p t lo hi w r (Some TBad).
Proof. unfold take_res_p. destruct r as [? [? []]|[? []]| |]; exact I. Qed.
Lemma then_take_p t lo hi w w1 o d1 m s1 e :
  took w w1 lo hi d1 -> take_res_p t lo hi w1 (m s1) e ->
  take_res_p t lo hi w ((ys <~ m ;; dret (o :: ys)) s1) (option_map (then_t o d1) e).
Proof.
  intros Ht H. unfold dbind. destruct (m s1) as [ys [w2 [it2 l2]]|[w2 [it2 l2]]| |u]; destruct e as [[outs rest hd d|rest hd d|]|];
    cbn [take_res_p option_map then_t] in *; try contradiction; auto.
  - destruct H as (-> & H1 & H2). unfold dret. split; [reflexivity|]. split; [exact H1|]. eapply took_trans; eauto.
  - destruct H as (H1 & H2). split; [exact H1|]. eapply took_trans; eauto.
Qed.
Lemma dlft_t_eq {A} (m : D world A) w s : dlft_t m (w, s) =
  match m w with DOk a w' => DOk a (w', s) | DPanic w' => DPanic (w', s) | DAbort => DAbort | DUB u => DUB u end.
Proof. reflexivity. Qed.
Lemma take_cmds_p_ok dp t lo hi : wf_ty t -> forall cmds w it rest l hd,
  taken w t lo hi it rest l hd ->
  take_res_p t lo hi w (dmapM (take_cmd_p dp t) cmds (w, (it, l))) (take_eval_p dp t cmds rest hd).
Proof.
  intros Hwf. induction cmds as [|c cmds IH]; intros w it rest l hd HT.
  - cbn [dmapM take_eval_p take_res_p]. unfold dret. split; [reflexivity|]. split; [exact HT|apply took_refl].
  - pose proof HT as (Hit & Hlo & Hhi & HF & Hord).
    assert (Hheld : forall j v, nth_error hd j = Some (Some v) -> exists a, nth_error l j = Some (Some a) /\ obj_at w t a v /\ lo <= a /\ a + vsize t v <= it_ptr it).
    { intros j v Hj. destruct (F2_nth _ _ _ _ _ HF Hj) as (x & Hx & H). destruct x as [a|]; [|contradiction]. exists a. auto. }
    destruct c as [| |j|j q new|j|j]; cbn [dmapM take_eval_p take_cmd_p].
    + destruct rest as [|v rest].
      * assert (E : take_cmd t TNext (w, (it, l)) = Ok (OutBool false) (w, (it, l))) by (cbn [take_cmd]; now rewrite (iter_next_nil w t it Hit)).
        rewrite (dlift_bind _ _ _ _ _ E). apply (then_take_p t lo hi w w); [apply took_refl|auto].
      * destruct (taken_next w t lo hi it v rest l hd Hwf HT) as (it' & En & HT').
        assert (E : take_cmd t TNext (w, (it, l)) = Ok (OutBool true) (w, (it', l ++ [Some (it_ptr it)]))) by (cbn [take_cmd]; now rewrite En).
        rewrite (dlift_bind _ _ _ _ _ E). apply (then_take_p t lo hi w w); [apply took_refl|auto].
    + assert (E : take_cmd t TLen (w, (it, l)) = Ok (OutNum (len rest)) (w, (it, l))) by (cbn [take_cmd]; unfold iter_len; now rewrite (proj1 Hit)).
      rewrite (dlift_bind _ _ _ _ _ E). apply (then_take_p t lo hi w w); [apply took_refl|auto].
    + destruct (nth_error hd j) as [[v|]|] eqn:Ej; try apply bad_take_p.
      destruct (Hheld j v Ej) as (a & Ha & Ho & _).
      assert (E : take_cmd t (TRead j) (w, (it, l)) = Ok (OutVal v) (w, (it, l))).
      { cbn [take_cmd]. step (held_at_ok w (it, l) j a Ha). rewrite (bind_ok _ _ _ _ _ (lft_t_ok _ _ (it, l) _ _ (deref_ok t w a v Hwf Ho))).
        now rewrite (bind_ok _ _ _ _ _ (lft_t_ok _ _ (it, l) _ _ (view_ok t w a v Hwf Ho))). }
      rewrite (dlift_bind _ _ _ _ _ E). apply (then_take_p t lo hi w w); [apply took_refl|auto].
    + destruct (nth_error hd j) as [[v|]|] eqn:Ej; try apply bad_take_p.
      destruct (mut_leaf t q) as [f|] eqn:Eq; [|apply bad_take_p].
      destruct (N.eqb_spec (len new) (f_size f)) as [Hln|]; [|apply bad_take_p].
      destruct (Hheld j v Ej) as (a & Ha & Ho & La & Lb). pose proof (assign_p_ok dp t w a v q f new Hwf Ho Eq Hln) as HA.
      assert (Ep : forall r, assign_p dp t a q new w = r -> take_cmd_p dp t (TAssign j q new) (w, (it, l)) =
         match r with DOk _ w' => DOk OutUnit (w', (it, l)) | DPanic w' => DPanic (w', (it, l)) | DAbort => DAbort | DUB u => DUB u end).
      { intros r Er. cbn [take_cmd_p]. rewrite (dlift_bind _ _ _ _ _ (held_at_ok w (it, l) j a Ha)).
        rewrite (dlift_bind _ _ _ _ _ (lft_t_ok _ _ (it, l) _ _ (deref_ok t w a v Hwf Ho))). unfold dbind. rewrite dlft_t_eq, Er. destruct r; reflexivity. }
      cbn [take_cmd_p] in Ep.
      destruct (leaf v q) as [b|] eqn:El.
      * destruct HA as (w' & o & Hle & E1 & U & Ho' & Hsh).
        pose proof (upd_blocks _ _ _ _ _ _ U) as Ub. rewrite without_nil in Ub.
        assert (Hm : same_outside (w_mem w) (w_mem w') a (vsize t v)) by (intros x Hx; apply (upd_mem _ _ _ _ _ _ U); lia).
        assert (Htk : took w w' lo hi (if f_drop f then [b] else [])).
        { split; [exact Ub|]. split; [intros x Hx; apply Hm; lia|]. exists (drop_events f [b]). split; [apply (upd_log_eq _ _ _ _ _ _ U)|].
          unfold drop_events; destruct (f_drop f); reflexivity. }
        assert (HT' : taken w' t lo hi it rest l (replace_nth hd j (Some (put v q new)))).
        { eapply (taken_put w w' t lo hi it rest l hd j a v); eauto. unfold vsize. now rewrite Hsh. }
        specialize (Ep _ E1). cbv zeta. destruct (f_drop f && dp b) eqn:Eb.
        -- unfold dbind at 1. rewrite Ep. cbn [take_res_p]. split; [exact HT'|]. apply andb_true_iff in Eb. destruct Eb as [Ef _]. now rewrite Ef in Htk.
        -- rewrite (dbind_ok _ _ _ _ _ Ep). apply (then_take_p t lo hi w w'); [exact Htk|]. now apply IH.
      * specialize (Ep _ HA). unfold dbind at 1. rewrite Ep. cbn [take_res_p]. split; [exact HT|apply took_refl].
    + destruct (nth_error hd j) as [[v|]|] eqn:Ej; try apply bad_take_p.
      destruct (Hheld j v Ej) as (a & Ha & Ho & La & Lb).
      assert (Ep : take_cmd_p dp t (TDrop j) (w, (it, l)) = match fated (drop_groups dp (vgroups t v)) w with
         DOk _ w' => DOk OutUnit (w', (it, update l j None)) | DPanic w' => DPanic (w', (it, update l j None)) | DAbort => DAbort | DUB u => DUB u end).
      { cbn [take_cmd_p]. rewrite (dlift_bind _ _ _ _ _ (held_at_ok w (it, l) j a Ha)).
        rewrite (dlift_bind (let_go j) _ (w, (it, l)) tt (w, (it, update l j None)) eq_refl). unfold dbind. rewrite dlft_t_eq, (owned_drop_p_ok dp t w a v Hwf Ho).
        unfold dropped, fated. destruct (drop_groups dp (vgroups t v)) as [[] d]; reflexivity. }
      cbn [take_cmd_p] in Ep. destruct (drop_groups dp (vgroups t v)) as [[] d]; cbn [fated] in Ep.
      * rewrite (dbind_ok _ _ _ _ _ Ep). apply (then_take_p t lo hi w (add_log w (map EDrop d))); [apply took_log|]. apply IH. apply taken_drop, taken_log, HT.
      * unfold dbind at 1. rewrite Ep. cbn [take_res_p]. split; [apply taken_drop, taken_log, HT|apply took_log].
      * unfold dbind at 1. rewrite Ep. exact I.
    + destruct (nth_error hd j) as [[v|]|] eqn:Ej; try apply bad_take_p.
      assert (E : take_cmd t (TForget j) (w, (it, l)) = Ok OutUnit (w, (it, update l j None))) by reflexivity.
      rewrite (dlift_bind _ _ _ _ _ E). apply (then_take_p t lo hi w w); [apply took_refl|]. apply IH. apply taken_drop, HT.
Qed.
(** The account of the commands without panicking destructors, as long as none panics. *)
Lemma take_eval_p_calm dp t : forall cmds rest hd, take_eval t cmds rest hd <> TBad ->
  match take_eval_p dp t cmds rest hd with
  | Some (TDone outs rest' hd' d) => take_eval t cmds rest hd = TDone outs rest' hd' d /\ existsb dp d = false
  | Some TBad => False
  | _ => True
  end.
Proof.
  assert (Hthen : forall o d e e', existsb dp d = false -> then_t o d e <> TBad ->
    (e <> TBad -> match e' with Some (TDone outs r h d) => e = TDone outs r h d /\ existsb dp d = false | Some TBad => False | _ => True end) ->
    match option_map (then_t o d) e' with Some (TDone outs r h d') => then_t o d e = TDone outs r h d' /\ existsb dp d' = false | Some TBad => False | _ => True end).
  { intros o d e e' Hd Hb H. assert (He : e <> TBad) by (intros ->; apply Hb; reflexivity). specialize (H He).
    destruct e' as [[outs r h d'|r h d'|]|]; cbn [option_map then_t]; auto. destruct H as [-> H]. split; [reflexivity|]. now rewrite existsb_app, Hd, H. }
  induction cmds as [|c cmds IH]; intros rest hd Hb; [cbn; auto|].
  destruct c as [| |j|j q new|j|j]; cbn [take_eval take_eval_p] in *.
  - destruct rest as [|v rest]; (apply Hthen; [reflexivity|exact Hb|exact (IH _ _)]).
  - (apply Hthen; [reflexivity|exact Hb|exact (IH _ _)]).
  - destruct (nth_error hd j) as [[v|]|]; try (exfalso; apply Hb; reflexivity). (apply Hthen; [reflexivity|exact Hb|exact (IH _ _)]).
  - destruct (nth_error hd j) as [[v|]|]; try (exfalso; apply Hb; reflexivity). destruct (mut_leaf t q) as [f|]; [|exfalso; apply Hb; reflexivity].
    destruct (len new =? f_size f); [|exfalso; apply Hb; reflexivity]. destruct (leaf v q) as [b|]; [|exact I]. cbv zeta.
    destruct (f_drop f && dp b) eqn:Eb; [exact I|]. apply Hthen; [|exact Hb|exact (IH _ _)]. destruct (f_drop f); [|reflexivity]. cbn in *. now rewrite Eb.
  - destruct (nth_error hd j) as [[v|]|]; try (exfalso; apply Hb; reflexivity).
    pose proof (groups_prefix dp (vgroups t v)) as HG. rewrite (proj1 vgroups_vdrops) in HG.
    destruct (drop_groups dp (vgroups t v)) as [[] d]; try exact I. destruct HG as [-> HG]. apply Hthen; [exact HG|exact Hb|exact (IH _ _)].
  - destruct (nth_error hd j) as [[v|]|]; try (exfalso; apply Hb; reflexivity). (apply Hthen; [reflexivity|exact Hb|exact (IH _ _)]).
Qed.
Lemma drop_all_calm dp t : forall hd d, drop_all dp (hd_groups t hd) = (Survives, d) -> d = hd_drops t hd /\ existsb dp d = false.
Proof.
  induction hd as [|o hd IH]; intros d; unfold hd_groups, hd_drops; cbn [map drop_all concat].
  - intros [= <-]. auto.
  - fold (hd_groups t hd). fold (hd_drops t hd). pose proof (groups_prefix dp (match o with Some v => vgroups t v | None => [] end)) as HG.
    replace (concat (match o with Some v => vgroups t v | None => [] end)) with (match o with Some v => vdrops t v | None => [] end) in HG
      by (destruct o; [symmetry; apply (proj1 vgroups_vdrops)|reflexivity]).
    destruct (drop_groups dp _) as [[] d1]; destruct (drop_all dp (hd_groups t hd)) as [[] d2]; try discriminate. intros [= <-].
    destruct HG as [-> HG]. destruct (IH d2 eq_refl) as [-> H]. split; [reflexivity|]. now rewrite existsb_app, HG, H.
Qed.
Lemma drop_end_calm dp t keep hd rest d : drop_end dp t keep hd rest = (Survives, d) ->
  d = hd_drops t hd ++ (if keep then [] else concat (map (vdrops t) rest)) /\ existsb dp d = false.
Proof.
  unfold drop_end. pose proof (drop_all_calm dp t hd) as HA. pose proof (groups_prefix dp (concat (map (vgroups t) rest))) as HG.
  replace (concat (concat (map (vgroups t) rest))) with (concat (map (vdrops t) rest)) in HG
    by (exact (eq_sym (groups_owned (ASeq t true rest [])))).
  destruct (drop_all dp (hd_groups t hd)) as [[] d1]; try discriminate.
  - destruct (HA d1 eq_refl) as [-> H]. destruct keep; [intros [= <-]; rewrite app_nil_r; auto|].
    destruct (drop_groups dp _) as [[] d2]; try discriminate. intros [= <-]. destruct HG as [-> HG]. split; [reflexivity|]. cbn [snd]. now rewrite existsb_app, H, HG.
  - destruct (drop_groups dp _) as [[] d2]; discriminate.
Qed.
Lemma step_take_p dp w sl σ n h cmds keep : Inv w sl σ n -> allowed σ (OTake h cmds keep) ->
  step_res_p dp σ (OTake h cmds keep) w n (exec_p dp (OTake h cmds keep) (w, sl)).
Proof.
  intros HI Hal. inversion Hal as [| | | | | | | | | | | | | | | | | |? ? ? t chk vs old Hh Hok| | |]; subst.
  destruct (take_start w sl σ n h t chk vs old HI Hh) as (s & s' & w1 & it & lo & hi & Hs & Hwf & E1 & HT & Hfin).
  pose proof (take_cmds_p_ok dp t lo hi Hwf cmds w1 it vs [] [] HT) as HR.
  pose proof (take_eval_p_calm dp t cmds vs [] Hok) as HC.
  assert (HP : forall w2 d, take_all dp t cmds keep vs = Some (None, d) -> took w1 w2 lo hi d ->
    step_ok_p dp σ (OTake h cmds keep) w Panicked w2 (update sl h (SSeq t chk s')) n).
  { intros w2 d Et Tk. destruct (Hfin w2 d Tk) as (HI' & evs & L & Dd). eexists _, evs. split; [|split; [exact L|exact HI']]. rewrite Dd, drops_map. eapply P_take; eauto. }
  assert (HB : take_all dp t cmds keep vs = None -> aborts dp σ (OTake h cmds keep)) by (intros; eapply B_taken; eauto).
  cbn [exec_p]. rewrite Hs. unfold call_seq_p. rewrite (dlift_bind _ _ _ _ _ E1). unfold dlft, take_run_p.
  unfold take_all in HP, HB.
  destruct (dmapM (take_cmd_p dp t) cmds (w1, (it, []))) as [outs [w2 [it2 l2]]|[w2 [it2 l2]]| |u] eqn:Em;
    destruct (take_eval_p dp t cmds vs []) as [[outs' rest hd d|rest hd d|]|] eqn:Ev; cbn [take_res_p] in HR; try contradiction.
  - destruct HR as (-> & HT2 & Tk). unfold dbind. rewrite (take_end_p_ok dp t lo hi keep w2 it2 rest l2 hd Hwf HT2).
    pose proof (drop_end_calm dp t keep hd rest) as HE.
    destruct (drop_end dp t keep hd rest) as [[] d2]; cbn [fated step_res_p dret fst snd leaks].
    + destruct (HE d2 eq_refl) as [Ed He]. destruct (Hfin _ _ (took_trans _ _ _ _ _ _ _ Tk (took_log w2 lo hi d2))) as (HI' & evs & L & Dd).
      eexists _, evs. split; [|split; [exact L|exact HI']]. rewrite Dd, drops_map. destruct HC as [HC1 HC2].
      apply P_calm; [|rewrite existsb_app, HC2, He; reflexivity]. rewrite Ed. eapply A_take; eauto.
    + eapply HP; [reflexivity|]. eapply took_trans; [exact Tk|apply took_log].
    + now apply HB.
  - destruct HR as (HT2 & Tk). unfold dunwind. rewrite (take_end_p_ok dp t lo hi false w2 it2 rest l2 hd Hwf HT2).
    destruct (drop_end dp t false hd rest) as [[] d2]; cbn [fated step_res_p fst snd leaks].
    + eapply HP; [reflexivity|]. eapply took_trans; [exact Tk|apply took_log].
    + now apply HB.
    + now apply HB.
  - cbn [step_res_p]. now apply HB.
Qed.
Lemma exec_p_ok dp w sl σ n o : Inv w sl σ n -> allowed_p dp σ o -> step_res_p dp σ o w n (exec_p dp o (w, sl)).
Proof.
  intros HI [Hal Hc]. pose proof (exec_ok w sl σ n o HI Hal) as HS.
  assert (Hrun : (forall r σ' d, astep σ o (Done r) σ' d -> existsb dp d = false) ->
     (forall σ' d, astep σ o Panicked σ' d -> existsb dp d = true -> aborts dp σ o) ->
     step_res_p dp σ o w n
       match exec o (w, sl) with
       | Ok r c => DOk r c
       | Panic c => if existsb dp (destroyed (skipn (length (w_log w)) (w_log (fst c)))) then DAbort else DPanic c
       | UB u => DUB u
       end).
  { intros H1 H2. destruct (exec o (w, sl)) as [r [w' sl']|[w' sl']|u]; cbn [step_res step_res_p fst] in *.
    - destruct HS as (σ' & evs & A & L & I'). exists σ', evs. split; [|auto]. apply P_calm; [exact A|]. eapply H1, A.
    - destruct HS as (σ' & evs & A & L & I'). rewrite L, skipn_app, skipn_all, Nat.sub_diag. cbn [app skipn]. rewrite destroyed_drops.
      destruct (existsb dp (drops_of evs)) eqn:Ed; cbn [step_res_p]; [eapply H2; eauto|].
      exists σ', evs. split; [now apply P_calm|]. split; [exact L|]. destruct o; exact I' || (eapply inv_more; [exact I'|cbn; lia]).
    - exact HS. }
  destruct o; cbn [exec_p]; try (apply Hrun; [intros r σ' d A; inversion A; reflexivity|intros σ' d A Ed; eapply B_construct; eauto; exact I]);
    try (apply Hrun; [intros r σ' d A; inversion A; reflexivity|intros σ' d A Ed; inversion A; subst; discriminate]).
  - now apply step_drop_p.
  - now apply step_assign_p.
  - now apply step_controllers_p.
  - now apply step_drain_p.
  - now apply step_take_p.
Qed.
