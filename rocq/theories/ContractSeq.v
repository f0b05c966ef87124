(** ContractSeq.v - push, extend, from_offset over any type that keeps the contract, and the frame. *)
From Verif Require Export ContractPush.

Lemma Forall2_in {A B} (P : A -> B -> Prop) xs ys x : Forall2 P xs ys -> In x xs -> exists y, P x y.
Proof. induction 1 as [|a b xs ys H HF IH]; intros Hx; [contradiction|]. destruct Hx as [<-|Hx]; [eauto|auto]. Qed.

Section SeqAny.
Context {L I V : Type} (u : impl L I) (d : meaning L I V).
Notation al := (u_align u).
Notation sz := (m_size d).

Lemma roomy_untouched w chk s need vs w1 s1 : roomy u d w chk s need vs w1 s1 -> untouched w w1 (ustore_base s).
Proof. intros R b Hb Hn. destruct (ry_rest u d _ _ _ _ _ _ _ R b Hb Hn) as (H1 & H2 & _). auto. Qed.
Lemma untouched_more w w' bs bs' : untouched w w' bs -> incl bs bs' -> untouched w w' bs'.
Proof. intros H Hi b Hb Hn. apply H; auto. Qed.
Lemma untouched_trans w w1 w2 bs : untouched w w1 bs -> untouched w1 w2 bs -> untouched w w2 bs.
Proof.
  intros H1 H2 b Hb Hn. destruct (H1 b Hb Hn) as [A B]. destruct (H2 b A Hn) as [C D]. split; [exact C|].
  intros x Hx. rewrite D, B by exact Hx. reflexivity.
Qed.

(** The whole of push. *)
Lemma upush_ok w chk s i vs : contract u d -> no_zst u d -> wf_blocks (w_blocks w) ->
  useq_at u d w chk s vs -> upushable d w s i ->
  exists w' s',
    wf_blocks (w_blocks w') /\ untouched w w' (ustore_base s ++ m_frees d i) /\ apart_from w s s' /\
    (forall b, In b (w_blocks w') -> (In b (w_blocks w) /\ ~ In (b_base b) (ustore_base s)) \/ In (b_base b) (ustore_base s')) /\
    (forall b, In b (w_blocks w') -> ~ In (b_base b) (m_frees d i)) /\
    ((useq_push u chk i (w, s) = Ok tt (w', s') /\ exists v, m_makes d i = Some v /\
        useq_at u d w' chk s' (vs ++ [v]) /\
        (chk = true -> umarks u d w s vs -> umarks u d w' s' (vs ++ [v])) /\
        w_log w' = w_log w ++ ugrowth u chk s s' ++ m_log d i) \/
     (useq_push u chk i (w, s) = Panic (w', s') /\ m_makes d i = None /\
        useq_at u d w' chk s' vs /\ (chk = true -> umarks u d w s vs -> umarks u d w' s' vs) /\
        w_log w' = w_log w ++ ugrowth u chk s s' ++ m_log d i) \/
     (useq_push u chk i (w, s) = Panic (w', s) /\ s' = s /\ urefuses u w chk s i /\
        useq_at u d w' chk s vs /\ (chk = true -> umarks u d w s vs -> umarks u d w' s vs) /\
        w_log w' = w_log w ++ m_idrop d i)).
Proof.
  intros K Z Hbl Hat Hi. pose proof (pow2_pos _ (k_align u d K)) as Hp.
  destruct (useq_push_cases u d w chk s i vs K Z Hbl Hat Hi) as
    [(Hr & w0 & w' & E & Hw0 & U)|(l & w1 & s1 & w2 & w' & Ec & R & M & Hat2 & Hbit & U & Hnot & Hn & H)].
  - assert (Hbl0 : wf_blocks (w_blocks w0)) by (destruct Hw0 as [->| ->]; exact Hbl).
    assert (Hunt : untouched w w' (m_frees d i)).
    { pose proof (effect_untouched0 _ _ _ _ Hbl0 U) as H. destruct Hw0 as [->| ->]; exact H. }
    assert (HB : w_blocks w' = without (w_blocks w) (m_frees d i)) by (destruct U as (_ & U & _); rewrite U; destruct Hw0 as [->| ->]; reflexivity).
    assert (HL : w_log w' = w_log w ++ m_idrop d i) by (destruct U as (_ & _ & _ & _ & U); rewrite U; destruct Hw0 as [->| ->]; reflexivity).
    assert (Hmem : 0 < s_cap s -> forall x, s_ptr s <= x < s_ptr s + ustorage al chk (s_cap s) -> w_mem w' x = w_mem w x).
    { intros Hc x Hx. destruct Hat as (_ & _ & _ & [[[E0 _] _]|(_ & B2 & _)]); [lia|].
      apply (Hunt (ublock u chk s) B2); [|exact Hx]. intros Hin.
      destruct (k_holds u d K w i (proj1 Hi)) as [_ Hf]. specialize (Hf _ Hin). apply in_map_iff in Hf. destruct Hf as (b & Eb & Hb).
      apply (proj2 Hi b Hb). rewrite Eb. unfold ustore_base. destruct (N.eqb_spec (s_cap s) 0); [lia|]. left. reflexivity. }
    exists w', s. split; [rewrite HB; apply wf_blocks_without, Hbl|]. split; [eapply untouched_more; [exact Hunt|apply incl_appr, incl_refl]|].
    split; [intros b _ Hb; exact Hb|].
    split; [intros b Hb; rewrite HB in Hb; apply in_without in Hb; destruct (in_dec N.eq_dec (b_base b) (ustore_base s)); tauto|].
    split; [intros b Hb; rewrite HB in Hb; apply in_without in Hb; tauto|].
    right; right. split; [exact E|]. split; [reflexivity|]. split; [exact Hr|].
    split; [|split; [|exact HL]].
    + destruct Hat as (A1 & A2 & A3 & A4). split; [exact A1|]. split; [exact A2|]. split; [exact A3|].
      destruct A4 as [A4|(B1 & B2 & B3 & B4 & B5 & B6)]; [left; exact A4|right]. specialize (Hmem B1).
      assert (Hin : In (ublock u chk s) (w_blocks w')).
      { apply (Hunt (ublock u chk s) B2). intros Hin.
        destruct (k_holds u d K w i (proj1 Hi)) as [_ Hf]. specialize (Hf _ Hin). apply in_map_iff in Hf. destruct Hf as (b & Eb & Hb).
        apply (proj2 Hi b Hb). rewrite Eb. unfold ustore_base. destruct (N.eqb_spec (s_cap s) 0); [lia|]. left. reflexivity. }
      repeat split; auto.
      * eapply uvalues_shift; [exact K| |exact B5]. intros k Hk. rewrite <- A2 in Hk. apply Hmem. unfold ustorage. nia.
      * intros Hk j Hj. rewrite Hmem by (subst; unfold ustorage; lia). auto.
    + intros Hk Hm Hc o Ho Hoc. rewrite <- (Hm Hc o Ho Hoc). unfold ubit. rewrite Hmem; [reflexivity|exact Hc|].
      subst. unfold ustorage. pose proof (N.div_lt_upper_bound o 8 ((s_cap s + 7) / 8) ltac:(lia) ltac:(lia)). lia.
  - pose proof R as [[R1 R2] R3 R4 R5 R6 Rn R7 R8]. cbv zeta in *. set (need := s_occ s + uunits al (u_lsize u l)) in *.
    pose proof (uunits_ge al (u_lsize u l) Hp) as Hug. pose proof (uunits_pos al _ Hp Hn) as Hup.
    assert (Hc1 : 0 < s_cap s1) by (unfold need in R3; lia).
    assert (Hend : s_occ s1 * al + u_lsize u l <= s_cap s1 * al) by (rewrite R2; unfold need in R3; nia).
    assert (Hsb : s_cap s1 * al <= ustorage al chk (s_cap s1)) by (unfold ustorage; lia).
    assert (Hin1 : In (ublock u chk s1) (w_blocks w1)).
    { destruct R5 as (_ & _ & _ & [[[E _] _]|(_ & B2 & _)]); [lia|exact B2]. }
    pose proof (effect_mem _ _ _ _ _ M) as M1. pose proof (effect_wf _ _ _ _ _ _ R4 M) as Hbl2.
    pose proof M as (_ & M2 & M3 & M4 & M5). rewrite without_nil in M2. rewrite app_nil_r in M5.
    destruct (useq_at_build u d w2 w' chk s1 vs (u_lsize u l) _ _ K Hbl2 Hat2 Hend Hc1 U Hnot) as (Hat' & Hin' & Hbm).
    pose proof (effect_wf _ _ _ _ _ _ Hbl2 U) as Hbl'.
    pose proof U as (_ & U2 & U3 & U4 & U5).
    assert (HB : w_blocks w' = without (w_blocks w1) (m_frees d i)) by (rewrite U2, M2; reflexivity).
    assert (Hst1 : ustore_base s1 = [s_ptr s1]) by (unfold ustore_base; destruct (N.eqb_spec (s_cap s1) 0); [lia|reflexivity]).
    assert (Hunt1 : untouched w1 w' (s_ptr s1 :: m_frees d i)).
    { eapply untouched_trans.
      - eapply untouched_more; [eapply (effect_untouched w1 w2 _ _ [] [] (ublock u chk s1)); [exact R4|exact M|exact Hin1| |]|]; cbn [ublock b_base b_size]; try lia.
        intros x [<-|[]]. left. reflexivity.
      - eapply (effect_untouched w2 w' _ _ _ _ (ublock u chk s1)); [exact Hbl2|exact U|rewrite M2; exact Hin1| |]; cbn [ublock b_base b_size]; lia. }
    assert (Hapart : apart_from w s s1).
    { intros b Hb Hnb Hb1. rewrite Hst1 in Hb1. destruct Hb1 as [Hb1|[]]. destruct (R6 b Hb Hnb) as (H1 & _ & H2).
      destruct R4 as [R4 _]. pose proof (R4 b H1). pose proof (ustore_pos u d chk (s_cap s1) K Hc1). lia. }
    assert (Hunt : untouched w w' (ustore_base s ++ m_frees d i)).
    { intros b Hb Hnb. rewrite in_app_iff in Hnb. destruct (R6 b Hb ltac:(tauto)) as (H1 & H2 & H3).
      assert (Hns : ~ In (b_base b) (s_ptr s1 :: m_frees d i)).
      { intros [Hx|Hx]; [|tauto]. apply (Hapart b Hb ltac:(tauto)). rewrite Hst1. left. exact Hx. }
      destruct (Hunt1 b H1 Hns) as [H4 H5]. split; [exact H4|]. intros x Hx. rewrite H5, H2 by exact Hx. reflexivity. }
    assert (Hnew : forall b, In b (w_blocks w') -> (In b (w_blocks w) /\ ~ In (b_base b) (ustore_base s)) \/ In (b_base b) (ustore_base s1)).
    { intros b Hb. rewrite HB in Hb. apply in_without in Hb. destruct Hb as [Hb _]. rewrite Hst1.
      destruct (ry_new u d _ _ _ _ _ _ _ R b Hb) as [H0|H0]; [left; exact H0|right; left; congruence]. }
    assert (Hgone : forall b, In b (w_blocks w') -> ~ In (b_base b) (m_frees d i)).
    { intros b Hb. rewrite HB in Hb. apply in_without in Hb. tauto. }
    assert (Hlog : w_log w' = w_log w ++ ugrowth u chk s s1 ++ m_log d i).
    { rewrite U5, M5. unfold ugrowth. destruct R8 as [(-> & -> & _)|(Hlt & Hcap & ->)].
      - now rewrite N.eqb_refl.
      - destruct (N.eqb_spec (s_cap s1) (s_cap s)); [lia|]. now rewrite <- app_assoc. }
    assert (Hbits : chk = true -> forall o, o < 8 * ((s_cap s1 + 7) / 8) -> ubit al w' s1 o = (ubit al w1 s1 o || (o =? s_occ s1))%bool).
    { intros Hk o Ho. rewrite <- (Hbit Hk o). unfold ubit. rewrite Hbm; [reflexivity|lia|].
      subst. unfold ustorage. pose proof (N.div_lt_upper_bound o 8 ((s_cap s1 + 7) / 8) ltac:(lia) ltac:(lia)). lia. }
    destruct (m_makes d i) as [v|].
    + destruct H as (E & Rp & Hs). exists w', (mkS (s_ptr s1) (s_len s1 + 1) need (s_cap s1)).
      change (ustore_base (mkS (s_ptr s1) (s_len s1 + 1) need (s_cap s1))) with (ustore_base s1).
      change (ugrowth u chk s (mkS (s_ptr s1) (s_len s1 + 1) need (s_cap s1))) with (ugrowth u chk s s1).
      split; [exact Hbl'|]. split; [exact Hunt|]. split; [exact Hapart|]. split; [exact Hnew|]. split; [exact Hgone|].
      left. split; [exact E|]. exists v. split; [reflexivity|]. split; [|split; [|exact Hlog]].
      * destruct Hat' as (A1 & A2 & A3 & A4). split; [cbn [s_len]; rewrite A1; unfold len; rewrite app_length; cbn; lia|].
        split; [cbn [s_occ]; rewrite map_app, utotal_app; cbn [map utotal]; rewrite <- A2, R2, <- Hs; unfold need; lia|].
        split; [exact R3|]. right. cbn [s_cap s_ptr]. destruct A4 as [[[E0 _] _]|(B1 & B2 & B3 & B4 & B5 & B6)]; [lia|].
        repeat split; auto. apply uvalues_app. split; [exact B5|]. cbn [uvalues]. split; [|exact Logic.I]. rewrite <- A2. exact Rp.
      * intros Hk Hm Hc o Ho Hoc. cbn [s_cap s_ptr s_occ] in *. change (ubit al w' (mkS (s_ptr s1) (s_len s1 + 1) need (s_cap s1)) o) with (ubit al w' s1 o).
        specialize (R7 Hk Hm Hc1). rewrite (Hbits Hk o Ho). rewrite map_app, ustarts_app, in_app_iff.
        pose proof R5 as (_ & A2 & _). rewrite <- A2. cbn [map ustarts]. rewrite N.add_0_l.
        destruct (N.eqb_spec o (s_occ s1)) as [->|Hne]; [rewrite orb_true_r; split; auto; intros _; right; left; reflexivity|].
        rewrite orb_false_r, (R7 o Ho Hne). cbn [In]. intuition congruence.
    + exists w', s1. split; [exact Hbl'|]. split; [exact Hunt|]. split; [exact Hapart|]. split; [exact Hnew|]. split; [exact Hgone|].
      right; left. split; [exact H|]. split; [reflexivity|]. split; [exact Hat'|]. split; [|exact Hlog].
      intros Hk Hm Hc o Ho Hoc. rewrite (Hbits Hk o Ho). destruct (N.eqb_spec o (s_occ s1)); [contradiction|].
      rewrite orb_false_r. exact (R7 Hk Hm Hc1 o Ho Hoc).
Qed.

(** What another operation leaves alone goes on being what it was. *)
Lemma useq_frame w w' bs chk s vs : contract u d -> untouched w w' bs -> useq_at u d w chk s vs ->
  (forall p, In p (ustore_base s) -> ~ In p bs) ->
  useq_at u d w' chk s vs /\ (chk = true -> umarks u d w s vs -> umarks u d w' s vs).
Proof.
  intros K Hu (A1 & A2 & A3 & A4) Hn.
  destruct A4 as [A4|(B1 & B2 & B3 & B4 & B5 & B6)].
  { split; [split; [exact A1|]; split; [exact A2|]; split; [exact A3|]; left; exact A4|]. intros _ _ Hc. lia. }
  assert (Hp : In (s_ptr s) (ustore_base s)) by (unfold ustore_base; destruct (N.eqb_spec (s_cap s) 0); [lia|left; reflexivity]).
  destruct (Hu _ B2 (Hn _ Hp)) as [H1 H2]. cbn [ublock b_base b_size] in H2. split.
  - split; [exact A1|]. split; [exact A2|]. split; [exact A3|]. right. repeat split; auto.
    + pose proof (pow2_pos _ (k_align u d K)). eapply uvalues_shift; [exact K| |exact B5]. intros k Hk. rewrite <- A2 in Hk. apply H2. unfold ustorage. nia.
    + intros Hk j Hj. rewrite H2 by (subst; unfold ustorage; lia). auto.
  - intros Hk Hm Hc o Ho Hoc. rewrite <- (Hm Hc o Ho Hoc). unfold ubit. rewrite H2; [reflexivity|].
    subst. unfold ustorage. pose proof (N.div_lt_upper_bound o 8 ((s_cap s + 7) / 8) ltac:(lia) ltac:(lia)). lia.
Qed.
Lemma uobj_frame w w' bs b a v : contract u d -> untouched w w' bs -> uobj_at u d w a v ->
  In b (w_blocks w) -> b_base b <= a -> a + sz v <= b_base b + b_size b -> ~ In (b_base b) bs -> uobj_at u d w' a v.
Proof.
  intros K Hu [(P0 & P1 & P2 & P3) Hr] Hb H1 H2 Hn. destruct (Hu b Hb Hn) as [H3 H4]. split.
  - split; [exact P0|]. split; [exact P1|]. split; [exact P2|]. right. exists b. split; [exact H3|]. lia.
  - eapply (k_move u d K); [exact Hr|]. intros k Hk. apply H4. lia.
Qed.
Lemma uok_frame w w' bs i : contract u d -> untouched w w' bs -> m_ok d w i ->
  (forall b, In b (m_holds d i) -> ~ In (b_base b) bs) -> m_ok d w' i.
Proof.
  intros K Hu Hi Hn. destruct (k_holds u d K w i Hi) as [Hh _]. apply (k_frame u d K w); auto.
Qed.

(** ** Dropping the items left in an iterator *)
Lemma udrop_all_ok is_ : contract u d -> forall w, wf_blocks (w_blocks w) -> Forall (m_ok d w) is_ ->
  ForallOrdPairs (fun i j => forall b, In b (m_holds d j) -> ~ In (b_base b) (m_frees d i)) is_ ->
  exists w', for_each (u_idrop u) is_ w = Ok tt w' /\ wf_blocks (w_blocks w') /\
    w_blocks w' = without (w_blocks w) (concat (map (m_frees d) is_)) /\
    untouched w w' (concat (map (m_frees d) is_)) /\
    w_log w' = w_log w ++ concat (map (m_idrop d) is_).
Proof.
  intros K. induction is_ as [|i r IH]; intros w Hbl Hok Hsep; cbn [for_each map concat].
  - exists w. rewrite without_nil, app_nil_r. split; [reflexivity|]. split; [exact Hbl|]. split; [reflexivity|].
    split; [intros b Hb _; split; auto|reflexivity].
  - inversion Hok as [|i' r' Hi Hr]; subst. inversion Hsep as [|i' r' Hs1 Hs2]; subst. rewrite Forall_forall in Hs1.
    destruct (k_idrop u d K w i Hi) as (w1 & E & U). pose proof (effect_untouched0 _ _ _ _ Hbl U) as Hu.
    pose proof (effect_wf _ _ _ _ _ _ Hbl U) as Hbl1. destruct U as (_ & U2 & _ & _ & U5).
    destruct (IH w1 Hbl1) as (w2 & E2 & Hbl2 & B2 & Hu2 & L2); [|exact Hs2|].
    { rewrite Forall_forall in *. intros j Hj. eapply (uok_frame w w1); [exact K|exact Hu|apply Hr, Hj|]. intros b Hb. apply (Hs1 j Hj b Hb). }
    exists w2. rewrite (bind_ok _ _ _ _ _ E). split; [exact E2|]. split; [exact Hbl2|].
    split; [rewrite B2, U2; apply without_app|]. split.
    + eapply untouched_trans.
      * eapply untouched_more; [exact Hu|apply incl_appl, incl_refl].
      * eapply untouched_more; [exact Hu2|apply incl_appr, incl_refl].
    + rewrite L2, U5, <- app_assoc. reflexivity.
Qed.

(** ** from_offset *)
Lemma ufrom_offset_ok w s vs o : contract u d -> no_zst u d -> wf_blocks (w_blocks w) ->
  useq_at u d w true s vs -> umarks u d w s vs ->
  (In o (ustarts al (map sz vs) 0) /\ ufrom_offset u s o w = Ok (s_ptr s + o * al) w) \/
  (~ In o (ustarts al (map sz vs) 0) /\ ufrom_offset u s o w = Panic w).
Proof.
  intros K Z Hbl Hat Hm. pose proof (t0_wf _ (k_align u d K)) as Hw0. pose proof (pow2_pos _ (k_align u d K)) as Hp.
  pose proof (is_offset_valid_bit w (t0 al) (s0 s) _ o Hw0 Hbl (shadow u d w true s vs K Hat)) as E.
  assert (E' : uis_offset_valid u s o w = Ok (if s_occ s <=? o then false else ubit al w s o) w).
  { unfold is_offset_valid in E. rewrite (valign_sp _ Hw0) in E. exact E. }
  unfold ufrom_offset. step E'. pose proof Hat as (A1 & A2 & A3 & A4).
  assert (Hv : Forall (fun n => 0 < n) (map sz vs)).
  { destruct A4 as [[_ ->]|(_ & _ & _ & _ & B5 & _)]; [constructor|eapply uvalues_pos; eauto]. }
  destruct (N.leb_spec (s_occ s) o) as [H|H].
  { right. split; [|reflexivity]. intros Hin. pose proof (ustarts_lt al _ 0 o Hp Hv Hin). lia. }
  assert (Hc : 0 < s_cap s) by lia.
  destruct (bitmap_cover (s_cap s)) as [Hcov _]. unfold bitmap_bytes in Hcov.
  specialize (Hm Hc o ltac:(lia) ltac:(lia)).
  destruct (ubit al w s o); [|right; split; [|reflexivity]; intros Hin; now apply Hm in Hin].
  left. assert (Hin : In o (ustarts al (map sz vs) 0)) by (apply Hm; reflexivity). split; [exact Hin|].
  pose proof (useq_iter_at u d w true s vs K Hbl Hat) as (_ & HW & Ho). cbn [seq_iter it_ptr] in *.
  pose proof (uobjs_forall u d w _ _ Ho) as HF.
  assert (Hx : In (s_ptr s + o * al) (uaddrs u d (s_ptr s) vs)) by (unfold uaddrs; apply (in_map (fun o => s_ptr s + o * al)), Hin).
  destruct (Forall2_in _ _ _ _ HF Hx) as (v & Hob).
  unfold ufrom_offset_unchecked, pmul. rewrite <- A2 in HW.
  assert (o * al < s_occ s * al) by nia.
  destruct (N.ltb_spec (o * al) W); [|lia]. unfold bind at 1, ret at 1. unfold wrapping_add. rewrite N.mod_small by lia.
  cbv zeta. now step (uderef u d w _ v K Hob).
Qed.
End SeqAny.
