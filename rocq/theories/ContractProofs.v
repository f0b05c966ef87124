(** ContractProofs.v - the containers over any type that keeps the contract. *)
From Verif Require Export SeqExtend ContractSpec.

(** ** A type whose objects are units of ALIGN bytes

    The lemmas about storage (growth, bitmap) do not depend on the element type beyond its
    alignment; they are used here for a type of that alignment. *)
Definition t0 (al : N) : vty := TFixed (mkF al al false (fun _ => None)).
Lemma t0_wf al : pow2 al -> wf_ty (t0 al).
Proof.
  intros H. split; [exact H|]. pose proof (pow2_pos _ H). pose proof (pow2_le _ H) as Hle. change (2^29) with 536870912 in Hle.
  split; [apply N.mod_same; cbn; lia|]. split; [cbn; rewrite ISIZE_eq; lia|]. intros v v' E. discriminate.
Qed.
Fixpoint chunks (m : N -> cell) (al p : N) (n : nat) : list vval :=
  match n with O => [] | S n => VFix (rd m p al) :: chunks m al (p + al) n end.
Lemma t0_cells al v : 0 < al -> vok (t0 al) v -> cells (t0 al) v = 1.
Proof.
  intros H Hv. unfold cells. assert (E : vsize (t0 al) v = al) by (destruct v; try contradiction; reflexivity). rewrite E.
  change (sp_align (t0 al)) with al. symmetry. apply (N.div_unique (al + (al - 1)) al 1 (al - 1)); lia.
Qed.
Lemma chunks_vok m al p n : Forall (vok (t0 al)) (chunks m al p n).
Proof.
  revert p; induction n as [|n IH]; intros p; constructor; [|apply IH]. cbn. unfold rd, len. rewrite rdn_len. lia.
Qed.
Lemma chunks_len m al p n : len (chunks m al p n) = N.of_nat n.
Proof. revert p; induction n as [|n IH]; intros p; [reflexivity|]. cbn [chunks]. rewrite len_cons, IH. lia. Qed.
Lemma chunks_total m al p n : 0 < al -> total (t0 al) (chunks m al p n) = N.of_nat n.
Proof.
  intros H. revert p; induction n as [|n IH]; intros p; [reflexivity|]. cbn [chunks total]. rewrite IH, t0_cells; auto; [lia|].
  pose proof (chunks_vok m al p (S n)) as Hv. now inversion Hv.
Qed.
Lemma chunks_at m al p n : 0 < al -> elems_at m (t0 al) p (chunks m al p n).
Proof.
  intros H. revert p; induction n as [|n IH]; intros p; [exact I|]. cbn [chunks elems_at].
  pose proof (chunks_vok m al p (S n)) as Hv. inversion Hv; subst. split; [assumption|]. split; [reflexivity|].
  rewrite t0_cells by auto. change (sp_align (t0 al)) with al. rewrite N.mul_1_l. apply IH.
Qed.

(** ** Sizes *)
Lemma uunits_ge al n : 0 < al -> n <= uunits al n * al.
Proof. intros H. unfold uunits. pose proof (N.div_mod (n + (al - 1)) al ltac:(lia)). pose proof (N.mod_lt (n + (al - 1)) al ltac:(lia)). nia. Qed.
Lemma uunits_lt al n : 0 < al -> uunits al n * al < n + al.
Proof. intros H. unfold uunits. pose proof (N.div_mod (n + (al - 1)) al ltac:(lia)). nia. Qed.
Lemma uunits_pos al n : 0 < al -> 0 < n -> 0 < uunits al n.
Proof. intros H Hn. pose proof (uunits_ge al n H). nia. Qed.
Lemma utotal_app al xs ys : utotal al (xs ++ ys) = utotal al xs + utotal al ys.
Proof. induction xs as [|x xs IH]; cbn [app utotal]; [lia|]. rewrite IH. lia. Qed.
Lemma ustarts_app al xs ys o : ustarts al (xs ++ ys) o = ustarts al xs o ++ ustarts al ys (o + utotal al xs).
Proof.
  revert o; induction xs as [|x xs IH]; intros o; cbn [app ustarts utotal]; [now rewrite N.add_0_r|].
  rewrite IH. now rewrite N.add_assoc.
Qed.
Lemma ustarts_lt al ns o x : 0 < al -> Forall (fun n => 0 < n) ns -> In x (ustarts al ns o) -> o <= x < o + utotal al ns.
Proof.
  intros H Hf. revert o; induction Hf as [|n ns Hn Hf IH]; intros o Hx; [contradiction|]. cbn [ustarts utotal] in *.
  pose proof (uunits_pos al n H Hn). destruct Hx as [<-|Hx]; [lia|]. specialize (IH _ Hx). lia.
Qed.
Lemma utotal_len al ns : 0 < al -> Forall (fun n => 0 < n) ns -> len ns <= utotal al ns.
Proof.
  intros H Hf. induction Hf as [|n ns Hn Hf IH]; [unfold len; cbn; lia|]. cbn [utotal]. rewrite len_cons. pose proof (uunits_pos al n H Hn). lia.
Qed.
Lemma ustarts_shift al ns o k : ustarts al ns (o + k) = map (fun x => x + k) (ustarts al ns o).
Proof.
  revert o; induction ns as [|n ns IH]; intros o; cbn [ustarts map]; [reflexivity|]. f_equal.
  rewrite <- IH. f_equal. lia.
Qed.

Lemma effect_mem w w' a n e : effect w w' a n [] e -> same_outside (w_mem w) (w_mem w') a n.
Proof. intros (H & _) x Hx. apply H; [exact Hx|]. intros b _ []. Qed.
Lemma effect_intro w w' a n bs e : upd w w' a n bs e -> effect w w' a n bs e.
Proof. intros (H & H'). split; [|exact H']. intros x Hx _. apply H, Hx. Qed.

Section Any.
Context {L I V : Type} (u : impl L I) (d : meaning L I V).
Notation al := (u_align u).
Notation sz := (m_size d).

Lemma uvalues_app m base xs ys :
  uvalues u d m base (xs ++ ys) <-> uvalues u d m base xs /\ uvalues u d m (base + utotal al (map sz xs) * al) ys.
Proof.
  revert base; induction xs as [|x xs IH]; intros base; cbn [app uvalues map utotal].
  - replace (base + 0 * al) with base by lia. tauto.
  - rewrite IH. replace (base + uunits al (sz x) * al + utotal al (map sz xs) * al)
      with (base + (uunits al (sz x) + utotal al (map sz xs)) * al) by lia. tauto.
Qed.
Lemma uvalues_shift m m' base base' vs : contract u d ->
  (forall k, k < utotal al (map sz vs) * al -> m' (base' + k) = m (base + k)) ->
  uvalues u d m base vs -> uvalues u d m' base' vs.
Proof.
  intros K. pose proof (pow2_pos _ (k_align u d K)) as Hp.
  revert base base'; induction vs as [|v vs IH]; intros base base' Hm H; cbn [uvalues map utotal] in *; [exact Logic.I|].
  destruct H as (H1 & H2). pose proof (uunits_ge al (sz v) Hp). split.
  - eapply (k_move u d K); [exact H1|]. intros k Hk. apply Hm. nia.
  - eapply IH; [|exact H2]. intros k Hk. rewrite <- !N.add_assoc. apply Hm. nia.
Qed.
Lemma uvalues_pos m base vs : no_zst u d -> uvalues u d m base vs -> Forall (fun n => 0 < n) (map sz vs).
Proof.
  intros [Z _]. revert base; induction vs as [|v vs IH]; intros base H; constructor; [eapply Z; apply H|eapply IH; apply H].
Qed.

(** The storage of a sequence, as that of a sequence of units. *)
Definition s0 (s : sq) : sq := mkS (s_ptr s) (s_occ s) (s_occ s) (s_cap s).
Lemma shadow w chk s vs : contract u d -> useq_at u d w chk s vs ->
  seq_at w (t0 al) chk (s0 s) (chunks (w_mem w) al (s_ptr s) (N.to_nat (s_occ s))).
Proof.
  intros K (A1 & A2 & A3 & A4). pose proof (pow2_pos _ (k_align u d K)) as Hp.
  split; [cbn; rewrite chunks_len; lia|]. split; [cbn [s0 s_occ]; rewrite chunks_total by auto; lia|]. split; [exact A3|].
  destruct A4 as [[E ->]|(B1 & B2 & B3 & B4 & B5 & B6)].
  - left. split; [exact E|]. cbn in A2. rewrite A2. reflexivity.
  - right. cbn [s0 s_cap s_ptr]. repeat split; auto. apply chunks_at, Hp.
Qed.
(** ... and back, when the elements are where they were. *)
Lemma unshadow w w' chk s vs : contract u d -> useq_at u d w chk s vs ->
  (exists xs, seq_at w' (t0 al) chk (s0 s) xs) ->
  (forall k, k < s_occ s * al -> w_mem w' (s_ptr s + k) = w_mem w (s_ptr s + k)) ->
  useq_at u d w' chk s vs.
Proof.
  intros K (A1 & A2 & A3 & A4) (xs & _ & _ & _ & X4) Hm. split; [exact A1|]. split; [exact A2|]. split; [exact A3|].
  destruct A4 as [A4|(B1 & B2 & B3 & B4 & B5 & B6)]; [left; exact A4|right].
  destruct X4 as [[[E _] _]|(C1 & C2 & C3 & C4 & C5 & C6)]; [cbn in E; lia|]. cbn [s0 s_cap s_ptr] in *.
  repeat split; auto. eapply uvalues_shift; [exact K| |exact B5]. intros k Hk. apply Hm. rewrite A2. exact Hk.
Qed.

Lemma useq_in_W w chk s vs : wf_blocks (w_blocks w) -> useq_at u d w chk s vs -> 0 < s_cap s ->
  s_ptr s <> 0 /\ s_ptr s + ustorage al chk (s_cap s) < W.
Proof.
  intros Hbl (_ & _ & _ & [[[E _] _]|(_ & Hin & _)]) Hc; [lia|]. destruct Hbl as [Hbl _]. specialize (Hbl _ Hin). cbn in Hbl. tauto.
Qed.

(** ** Objects *)
Lemma uderef w a v : contract u d -> uobj_at u d w a v -> check_ref a (u_hsize u) (u_halign u) w = Ok tt w.
Proof.
  intros K [(P0 & Pm & PW & Pl) Hr]. destruct (k_halign u d K) as [H1 H2]. apply check_ref_ok; auto.
  - eapply pow2_mod; [exact H1|exact (k_align u d K)|exact H2|exact Pm].
  - eapply live_pre; [exact Pl|]. eapply (k_head u d K), Hr.
Qed.

Fixpoint uobjs_at (w : world) (base : N) (vs : list V) : Prop :=
  match vs with
  | [] => True
  | v :: r => uobj_at u d w base v /\ uobjs_at w (base + uunits al (sz v) * al) r
  end.
Definition uiter_at (w : world) (it : iter) (vs : list V) : Prop :=
  it_len it = len vs /\ it_ptr it + utotal al (map sz vs) * al < W /\ uobjs_at w (it_ptr it) vs.

Lemma uvalues_objs w chk s base vs : contract u d ->
  In (ublock u chk s) (w_blocks w) -> wf_blocks (w_blocks w) -> s_ptr s <= base -> base mod al = 0 ->
  base + utotal al (map sz vs) * al <= s_ptr s + s_cap s * al ->
  uvalues u d (w_mem w) base vs -> uobjs_at w base vs.
Proof.
  intros K Hin Hbl. pose proof (pow2_pos _ (k_align u d K)) as Hp.
  pose proof (wf_block_in _ _ Hbl Hin) as (B0 & B1 & B2). cbn [ublock b_base b_size] in *.
  revert base; induction vs as [|v vs IH]; intros base H1 H2 H3 He; cbn [uobjs_at uvalues map utotal] in *; [exact Logic.I|].
  destruct He as (E2 & E3). pose proof (uunits_ge al (sz v) Hp) as Hc.
  assert (Hst : s_cap s * al <= ustorage al chk (s_cap s)) by (unfold ustorage; lia).
  split.
  - split; [|exact E2]. split; [lia|]. split; [exact H2|]. split; [nia|].
    right. exists (ublock u chk s). split; [exact Hin|]. cbn [ublock b_base b_size]. nia.
  - apply IH; auto; try lia.
    rewrite N.add_mod by lia. rewrite H2, N.mod_mul by lia. reflexivity.
Qed.
Lemma useq_iter_at w chk s vs : contract u d -> wf_blocks (w_blocks w) -> useq_at u d w chk s vs -> uiter_at w (seq_iter s) vs.
Proof.
  intros K Hbl (A1 & A2 & A3 & A4). split; [exact A1|]. cbn [seq_iter it_ptr].
  destruct A4 as [[E ->]|(B1 & B2 & B3 & B4 & B5 & B6)].
  - cbn. split; [lia|exact Logic.I].
  - pose proof (wf_block_in _ _ Hbl B2) as (C0 & C1 & C2). cbn [ublock b_base b_size] in *.
    assert (Hst : s_cap s * al <= ustorage al chk (s_cap s)) by (unfold ustorage; lia).
    rewrite <- A2. split; [nia|]. eapply uvalues_objs; eauto; [lia|]. rewrite <- A2. nia.
Qed.

Lemma uiter_next_cons w it v vs : contract u d -> uiter_at w it (v :: vs) ->
  exists it', uiter_next u it w = Ok (Some (it_ptr it), it') w /\ uiter_at w it' vs /\
    it' = mkI (it_ptr it + uunits al (sz v) * al) (len vs).
Proof.
  intros K (A1 & A2 & Ho & A3). rewrite len_cons in A1. unfold uiter_next. rewrite A1.
  destruct (N.ltb_spec 0 (1 + len vs)); [|lia].
  step (uderef w (it_ptr it) v K Ho). destruct (k_calc u d K w (it_ptr it) v Ho) as (l & E & Hl). step E.
  rewrite (k_size u d K v l Hl). cbn [map utotal] in A2. rewrite N.mul_add_distr_r in A2.
  unfold round_up_fast. change (uunits al (sz v) * al) with (up (sz v) al) in *.
  rewrite mask_up by (first [apply (k_align u d K) | lia]).
  unfold wrapping_add. rewrite N.mod_small by lia.
  eexists. split; [reflexivity|]. replace (1 + len vs - 1) with (len vs) by lia. split; [|reflexivity].
  split; [reflexivity|]. cbn [it_ptr]. split; [lia|exact A3].
Qed.
Lemma uiter_next_nil w it : uiter_at w it [] -> uiter_next u it w = Ok (None, it) w.
Proof. intros (A1 & _). unfold uiter_next. rewrite A1. reflexivity. Qed.
Lemma uaddrs_cons base v vs : uaddrs u d base (v :: vs) = base :: uaddrs u d (base + uunits al (sz v) * al) vs.
Proof.
  unfold uaddrs. cbn [map ustarts]. f_equal; [lia|].
  rewrite ustarts_shift, map_map. apply map_ext. intros x. lia.
Qed.
Lemma uiter_collect_ok w it vs fuel : contract u d -> uiter_at w it vs -> (length vs < fuel)%nat ->
  uiter_collect u fuel it w = Ok (uaddrs u d (it_ptr it) vs) w.
Proof.
  intros K. revert it fuel; induction vs as [|v vs IH]; intros it fuel Ha Hf; (destruct fuel as [|fuel]; [cbn in Hf; lia|]).
  - cbn [uiter_collect]. step (uiter_next_nil w it Ha). reflexivity.
  - cbn [uiter_collect]. destruct (uiter_next_cons w it v vs K Ha) as (it' & E & Ha' & Eit). step E. cbn [fst snd].
    step (IH it' fuel Ha' ltac:(cbn in Hf; lia)). rewrite uaddrs_cons, Eit. reflexivity.
Qed.
Lemma uobjs_forall w base vs : uobjs_at w base vs -> Forall2 (uobj_at u d w) (uaddrs u d base vs) vs.
Proof.
  revert base; induction vs as [|v vs IH]; intros base H; [constructor|]. rewrite uaddrs_cons. constructor; [apply H|apply IH, H].
Qed.

(** ** Dropping *)
Lemma uowned_drop_ok w a v : contract u d -> uobj_at u d w a v ->
  exists w', uowned_drop u a w = Ok tt w' /\ effect w w' a (sz v) [] (m_drops d v).
Proof.
  intros K Ho. unfold uowned_drop. step (uderef w a v K Ho). destruct (k_calc u d K w a v Ho) as (l & E & Hl). step E.
  exact (k_vdrop u d K w a v l Ho Hl).
Qed.
Lemma uvbox_drop_ok w a v : contract u d -> uobj_at u d w a v -> In (mkB a (sz v) al true) (w_blocks w) ->
  exists w', uvbox_drop u a w = Ok tt w' /\ effect w w' 0 0 [a] (m_drops d v ++ [EDealloc a (sz v) al]).
Proof.
  intros K Ho Hb. unfold uvbox_drop. step (uderef w a v K Ho). destruct (k_calc u d K w a v Ho) as (l & E & Hl). step E.
  destruct (k_vdrop u d K w a v l Ho Hl) as (w1 & E1 & U). pose proof (effect_mem _ _ _ _ _ U) as U1. destruct U as (_ & U2 & U3 & U4 & U5). step E1. rewrite without_nil in U2.
  rewrite (k_size u d K v l Hl). rewrite dealloc_ok by (rewrite U2; exact Hb).
  eexists. split; [reflexivity|]. unfold effect. cbn. rewrite U2, U5, app_assoc. repeat split; auto.
  intros x _ Hx. apply U1. exact (Hx _ Hb (or_introl eq_refl)).
Qed.
Lemma uobjs_range w w' base vs : contract u d ->
  (forall x, base <= x < base + utotal al (map sz vs) * al -> w_mem w' x = w_mem w x) ->
  w_blocks w' = w_blocks w -> uobjs_at w base vs -> uobjs_at w' base vs.
Proof.
  intros K. pose proof (pow2_pos _ (k_align u d K)) as Hp.
  revert base; induction vs as [|v vs IH]; intros base Hm Hb H; [exact Logic.I|]. destruct H as [(P & Hr) H2].
  cbn [map utotal] in Hm. pose proof (uunits_ge al (sz v) Hp) as Hc. split.
  - split; [rewrite Hb; exact P|]. eapply (k_move u d K); [exact Hr|]. intros k Hk. apply Hm. lia.
  - apply IH; auto. intros x Hx. apply Hm. lia.
Qed.
Definition udrops (vs : list V) : list event := concat (map (m_drops d) vs).
Lemma udrop_loop_ok w it vs n : contract u d -> uiter_at w it vs -> (length vs < n)%nat ->
  exists w', udrop_elems_loop u n it w = Ok tt w' /\
    effect w w' (it_ptr it) (utotal al (map sz vs) * al) [] (udrops vs).
Proof.
  intros K. pose proof (pow2_pos _ (k_align u d K)) as Hp.
  revert w it n; induction vs as [|v vs IH]; intros w it n Ha Hn; (destruct n as [|n]; [cbn in Hn; lia|]); cbn [udrop_elems_loop].
  - step (uiter_next_nil w it Ha). cbn [fst]. exists w. split; [reflexivity|]. unfold effect, udrops. cbn. rewrite app_nil_r, without_nil. repeat split; auto.
  - destruct (uiter_next_cons w it v vs K Ha) as (it' & E & Ha' & Eit). step E. cbn [fst snd].
    assert (Ho : uobj_at u d w (it_ptr it) v) by apply Ha.
    destruct (uowned_drop_ok w _ v K Ho) as (w1 & E1 & U). pose proof (effect_mem _ _ _ _ _ U) as U1. destruct U as (_ & U2 & U3 & U4 & U5). step E1. rewrite without_nil in U2.
    pose proof (uunits_ge al (sz v) Hp) as Hc.
    assert (Ha1 : uiter_at w1 it' vs).
    { destruct Ha' as (I1 & I2 & I3). split; [exact I1|]. split; [exact I2|]. apply (uobjs_range w); auto.
      intros x Hx. apply U1. right. subst it'. cbn [it_ptr] in Hx. lia. }
    destruct (IH w1 it' n Ha1 ltac:(cbn in Hn; lia)) as (w' & E2 & X). pose proof (effect_mem _ _ _ _ _ X) as X1. destruct X as (_ & X2 & X3 & X4 & X5).
    exists w'. split; [exact E2|]. cbn [map utotal]. subst it'. cbn [it_ptr] in X1. split; [|split; [|split; [|split]]].
    + intros x Hx _. rewrite X1, U1 by lia. reflexivity.
    + rewrite X2, U2. reflexivity.
    + congruence.
    + congruence.
    + rewrite X5, U5. unfold udrops. cbn [map concat]. now rewrite app_assoc.
Qed.
Lemma uelems_drop_ok w it vs : contract u d -> uiter_at w it vs ->
  exists w', uowned_elems_drop u it w = Ok tt w' /\
    effect w w' (it_ptr it) (utotal al (map sz vs) * al) [] (udrops vs).
Proof.
  intros K Ha. unfold uowned_elems_drop. destruct (u_ndrop u || u_nvdrop u) eqn:E.
  - apply udrop_loop_ok; auto. rewrite (proj1 Ha). unfold len. lia.
  - apply orb_false_iff in E. destruct E as [_ E]. destruct Ha as (_ & _ & Ho).
    assert (Hd : udrops vs = []).
    { revert Ho. generalize (it_ptr it). induction vs as [|v vs IH]; intros base H; [reflexivity|]. unfold udrops in *. cbn [map concat].
      rewrite (IH _ (proj2 H)). rewrite app_nil_r. destruct H as [[_ Hr] _]. eapply (k_noop u d K E), Hr. }
    exists w. split; [reflexivity|]. rewrite Hd. unfold effect. rewrite app_nil_r, without_nil. repeat split; auto.
Qed.
Lemma utake_ok w chk s vs : contract u d -> wf_blocks (w_blocks w) -> useq_at u d w chk s vs ->
  exists w', utake_elems u chk (w, s) = Ok (seq_iter s) (w', mkS (s_ptr s) 0 0 (s_cap s)) /\ same_world w w' /\
    uiter_at w' (seq_iter s) vs /\ useq_at u d w' chk (mkS (s_ptr s) 0 0 (s_cap s)) [].
Proof.
  intros K Hbl Hat. pose proof (t0_wf _ (k_align u d K)) as Hw0.
  destruct (clear_bitmasks_0 w (t0 al) chk (s0 s) _ Hw0 Hbl (shadow w chk s vs K Hat)) as (w' & E & Hs).
  rewrite (valign_sp _ Hw0) in E. change (sp_align (t0 al)) with al in E.
  exists w'. split; [|split; [exact Hs|]].
  - unfold utake_elems. unfold bind at 1, get_sq at 1. unfold bind at 1, set_sq at 1. unfold bind at 1, get_sq at 1.
    cbn [s_ptr s_cap s_occ]. rewrite (bind_ok _ _ _ _ _ (lft_ok _ _ (mkS (s_ptr s) 0 0 (s_cap s)) _ _ E)). reflexivity.
  - destruct (useq_iter_at _ _ _ _ K Hbl Hat) as (I1 & I2 & I3). destruct Hs as (H1 & H2 & _). split.
    + split; [exact I1|]. split; [exact I2|]. apply (uobjs_range w); auto.
    + destruct Hat as (A1 & A2 & A3 & A4).
      split; [reflexivity|]. split; [reflexivity|]. split; [cbn; lia|]. cbn [s_ptr s_cap].
      destruct A4 as [[E1 _]|(B1 & B2 & B3 & B4 & B5 & B6)]; [left; auto|right].
      rewrite H2. repeat split; auto. intros Hc j Hj. rewrite H1. auto.
Qed.
Definition ufree (chk : bool) (s : sq) : list event :=
  if s_cap s =? 0 then [] else [EDealloc (s_ptr s) (ustorage al chk (s_cap s)) al].
Lemma useq_drop_ok w chk s vs : contract u d -> wf_blocks (w_blocks w) -> useq_at u d w chk s vs ->
  exists w' s', useq_drop u chk (w, s) = Ok tt (w', s') /\
    effect w w' 0 0 (ustore_base s) (udrops vs ++ ufree chk s).
Proof.
  intros K Hbl Hat. pose proof (t0_wf _ (k_align u d K)) as Hw0. unfold useq_drop. unfold bind at 1, get_sq at 1. unfold ustore_base, ufree.
  destruct (N.eqb_spec (s_cap s) 0) as [E|E].
  - exists w, s. split; [reflexivity|]. destruct Hat as (_ & _ & _ & [[_ ->]|(B1 & _)]); [|lia]. unfold effect, udrops. cbn. rewrite without_nil, app_nil_r. repeat split; auto.
  - destruct (utake_ok w chk s vs K Hbl Hat) as (w1 & E1 & Hs & Hit & Hat1).
    rewrite (bind_ok _ _ _ _ _ E1). set (s1 := mkS (s_ptr s) 0 0 (s_cap s)) in *.
    destruct (uelems_drop_ok w1 (seq_iter s) vs K Hit) as (w2 & E2 & U). pose proof (effect_mem _ _ _ _ _ U) as U1. destruct U as (_ & U2 & U3 & U4 & U5). rewrite without_nil in U2.
    rewrite (bind_ok _ _ _ _ _ (lft_ok _ _ s1 _ _ E2)).
    unfold bind at 1, get_sq at 1.
    destruct Hat as (_ & A2 & A3 & [[[E3 _] _]|(B1 & B2 & B3 & B4 & B5 & B6)]); [lia|].
    assert (HcW : s_cap s * al < W) by (unfold ustorage in B3; rewrite ISIZE_eq in B3; rewrite W_eq; lia).
    unfold pmul. cbn [s1 s_cap s_ptr]. destruct (N.ltb_spec (s_cap s * al) W); [|lia].
    unfold bind at 1, ret at 1.
    rewrite (bind_ok _ _ _ _ _ (lft_ok _ _ s1 _ _ (extended_ok (t0 al) chk w2 (s_cap s) Hw0 B3))).
    destruct Hs as (H1 & H2 & H3 & H4 & H5).
    assert (Hin : In (mkB (s_ptr s) (storage_bytes (t0 al) chk (s_cap s)) al true) (w_blocks w2)).
    { rewrite U2, H2. exact B2. }
    rewrite (lft_ok _ _ s1 _ _ (dealloc_ok w2 _ _ _ Hin)).
    eexists _, s1. split; [reflexivity|]. unfold effect. cbn [add_log set_blocks w_mem w_blocks w_alloc w_tick w_log].
    split; [|split; [|split; [|split]]].
    + intros x _ Hx. specialize (Hx _ B2 (or_introl eq_refl)). cbn [ublock b_base b_size] in Hx.
      rewrite U1, H1; [reflexivity|]. cbn [seq_iter it_ptr]. rewrite <- A2. unfold ustorage in Hx. nia.
    + now rewrite U2, H2.
    + congruence.
    + congruence.
    + rewrite U5, H5, app_assoc. reflexivity.
Qed.
End Any.
