(** ContractPush.v - VBox::new and Seq::push over any type that keeps the contract. *)
From Verif Require Export ContractProofs.

(** Blocks with the given bases aside, [w'] holds what [w] holds. *)
Lemma effect_untouched w w' a n bases evs b0 : wf_blocks (w_blocks w) -> effect w w' a n bases evs ->
  In b0 (w_blocks w) -> b_base b0 <= a -> a + n <= b_base b0 + b_size b0 ->
  untouched w w' (b_base b0 :: bases).
Proof.
  intros Hbl (U1 & U2 & _) Hin H1 H2 b Hb Hn. cbn [In] in Hn. split; [rewrite U2; apply in_without; tauto|].
  intros x Hx. destruct Hbl as [Hw Hf]. apply U1.
  - destruct (FOP_in _ _ b b0 Hf Hb Hin) as [->|[H|H]]; [tauto| |]; unfold blocks_apart in H; lia.
  - intros b' Hb' Hin'. destruct (FOP_in _ _ b b' Hf Hb Hb') as [->|[H|H]]; [tauto| |]; unfold blocks_apart in H; lia.
Qed.
Lemma effect_untouched0 w w' bases evs : wf_blocks (w_blocks w) -> effect w w' 0 0 bases evs -> untouched w w' bases.
Proof.
  intros Hbl (U1 & U2 & _) b Hb Hn. split; [rewrite U2; apply in_without; tauto|].
  intros x Hx. destruct Hbl as [Hw Hf]. apply U1; [right; lia|].
  intros b' Hb' Hin'. destruct (FOP_in _ _ b b' Hf Hb Hb') as [->|[H|H]]; [tauto| |]; unfold blocks_apart in H; lia.
Qed.
Lemma effect_wf w w' a n bases evs : wf_blocks (w_blocks w) -> effect w w' a n bases evs -> wf_blocks (w_blocks w').
Proof. intros H (_ & U & _). rewrite U. apply wf_blocks_without, H. Qed.

Section Push.
Context {L I V : Type} (u : impl L I) (d : meaning L I V).
Notation al := (u_align u).
Notation sz := (m_size d).

(** ** VBox::new *)
Lemma ok_fresh w w1 i p n hp : contract u d -> wf_blocks (w_blocks w) -> m_ok d w i ->
  valid_answer (w_blocks w) p n al = true -> 0 < n ->
  w_blocks w1 = mkB p n al hp :: w_blocks w -> same_outside (w_mem w) (w_mem w1) p n ->
  m_ok d w1 i /\ uplace u (without (w_blocks w1) (m_frees d i)) p n /\
  (forall b, In b (m_holds d i) -> apart (b_base b) (b_size b) p n) /\
  without (w_blocks w1) (m_frees d i) = mkB p n al hp :: without (w_blocks w) (m_frees d i).
Proof.
  intros K Hbl Hi Hv Hn Hb1 Hm1. destruct (fresh_apart _ _ _ _ Hv) as (F0 & Fm & FW & Fb & Fa).
  destruct (k_holds u d K w i Hi) as [Hh Hf].
  assert (Hnot : ~ In p (m_frees d i)).
  { intros Hin. specialize (Hf _ Hin). apply in_map_iff in Hf. destruct Hf as (b & Eb & Hb). specialize (Hh _ Hb).
    specialize (Fb b Hh). destruct Hbl as [Hbl _]. specialize (Hbl b Hh). lia. }
  assert (Hwo : without (w_blocks w1) (m_frees d i) = mkB p n al hp :: without (w_blocks w) (m_frees d i)).
  { rewrite Hb1. unfold without. cbn [filter b_base].
    destruct (existsb (N.eqb p) (m_frees d i)) eqn:E; [|reflexivity].
    apply existsb_exists in E. destruct E as (x & Hx & Ex). apply N.eqb_eq in Ex. subst. contradiction. }
  split; [|split; [|split; [|exact Hwo]]].
  - apply (k_frame u d K w); auto. intros b Hb. specialize (Hh b Hb). split; [rewrite Hb1; right; exact Hh|].
    intros x Hx. apply Hm1. specialize (Fb b Hh). lia.
  - repeat split; auto. right. rewrite Hwo. eexists. split; [left; reflexivity|]. cbn. lia.
  - intros b Hb. specialize (Fb b (Hh b Hb)). unfold apart. lia.
Qed.

(** The world just after a successful allocation. *)
Definition alloced (w : world) (p n a : N) : world :=
  mkW (fill (w_mem w) p n Un) (mkB p n a true :: w_blocks w) (w_alloc w) (S (w_tick w)) (w_log w ++ [EAlloc p n a]).

Lemma uvbox_new_cases w i : contract u d -> no_zst u d -> wf_blocks (w_blocks w) -> m_ok d w i ->
  (((forall l, u_cautious u i w = Ok (Some l) w -> ISIZE_MAX < u_lsize u l + (al - 1)) /\
    exists w', uvbox_new u i w = Panic w' /\ effect w w' 0 0 (m_frees d i) (m_idrop d i)) \/
   (exists l, u_cautious u i w = Ok (Some l) w /\
     (forall p, w_alloc w (w_tick w) (u_lsize u l) al = Some p -> valid_answer (w_blocks w) p (u_lsize u l) al = false) /\
     uvbox_new u i w = UB UNull)) \/
  (exists l p w', u_cautious u i w = Ok (Some l) w /\ valid_answer (w_blocks w) p (u_lsize u l) al = true /\
     let w1 := alloced w p (u_lsize u l) al in
     effect w1 w' p (u_lsize u l) (m_frees d i) (m_log d i) /\
     w_blocks w' = mkB p (u_lsize u l) al true :: without (w_blocks w) (m_frees d i) /\
     match m_makes d i with
     | Some v => uvbox_new u i w = Ok p w' /\ uobj_at u d w' p v /\ u_lsize u l = sz v
     | None => uvbox_new u i w = Panic w'
     end).
Proof.
  intros K [Z1 Z2] Hbl Hi. unfold uvbox_new. destruct (k_idrop u d K w i Hi) as (wd & Ed & Ud).
  destruct (k_cautious u d K w i Hi) as [Ec|[r Ec]].
  { left. left. split; [intros l E; congruence|]. exists wd. split; [|exact Ud]. apply bind_panic. eapply on_unwind_panic; eauto. }
  step (on_unwind_ok _ (u_idrop u i) _ _ _ Ec). destruct r as [l|].
  2:{ left. left. split; [intros l E; congruence|]. exists wd. split; [|exact Ud]. now step Ed. }
  rewrite (fsa_pow al (u_lsize u l) (k_align u d K)).
  destruct (N.leb_spec (u_lsize u l + (al - 1)) ISIZE_MAX) as [Hfit|Hfit].
  2:{ left. left. split; [intros l' E; assert (l' = l) by congruence; subst; exact Hfit|]. exists wd. split; [|exact Ud]. now step Ed. }
  pose proof (Z2 w i l Hi Ec) as Hn.
  destruct (alloc_cases (u_lsize u l) al w Hn) as [(p & Hv & Ha & E)|[Hno E]]; rewrite (bind_ok _ _ _ _ _ E).
  2:{ left. right. exists l. auto. }
  right. destruct (fresh_apart _ _ _ _ Hv) as (F0 & Fm & FW & Fb & Fa). destruct (N.eqb_spec p 0); [contradiction|].
  fold (alloced w p (u_lsize u l) al). set (w1 := alloced w p (u_lsize u l) al).
  destruct (ok_fresh w w1 i p _ true K Hbl Hi Hv Hn eq_refl (fill_out _ _ _ _)) as (R1 & R2 & R3 & R4).
  pose proof (k_init u d K w w1 i l p Hi Ec R1 R2 R3) as B.
  destruct (m_makes d i) as [v|].
  - destruct B as (w' & E1 & U1 & Rp & Hl). exists l, p, w'. split; [exact Ec|]. split; [exact Hv|]. cbv zeta. fold w1.
    split; [exact U1|]. assert (Hbk : w_blocks w' = mkB p (u_lsize u l) al true :: without (w_blocks w) (m_frees d i)) by (rewrite <- R4; apply U1).
    split; [exact Hbk|]. split; [now step E1|]. pose proof (k_size u d K v l Hl) as Hs. split; [|exact Hs]. split; [|exact Rp].
    rewrite <- Hs. destruct U1 as (_ & U2 & _). rewrite U2. exact R2.
  - destruct B as (w' & E1 & U1). exists l, p, w'. split; [exact Ec|]. split; [exact Hv|]. cbv zeta. fold w1.
    split; [exact U1|]. split; [rewrite <- R4; apply U1|]. now apply bind_panic.
Qed.

(** ** Making room *)
Definition uwith (s : sq) (p cap : N) : sq := mkS p (s_len s) (s_occ s) cap.

(** [w1], [s1]: the sequence has room for [need] units and nothing else changed. *)
Record roomy (w : world) (chk : bool) (s : sq) (need : N) (vs : list V) (w1 : world) (s1 : sq) : Prop := mkRoomy {
  ry_s : s_len s1 = s_len s /\ s_occ s1 = s_occ s;
  ry_need : need <= s_cap s1;
  ry_wf : wf_blocks (w_blocks w1);
  ry_at : useq_at u d w1 chk s1 vs;
  ry_rest : forall b, In b (w_blocks w) -> ~ In (b_base b) (ustore_base s) ->
    In b (w_blocks w1) /\ (forall x, b_base b <= x < b_base b + b_size b -> w_mem w1 x = w_mem w x) /\
    (b_base b + b_size b <= s_ptr s1 \/ s_ptr s1 + ustorage al chk (s_cap s1) <= b_base b);
  ry_new : forall b, In b (w_blocks w1) -> (In b (w_blocks w) /\ ~ In (b_base b) (ustore_base s)) \/ b_base b = s_ptr s1;
  ry_marks : chk = true -> umarks u d w s vs -> umarks u d w1 s1 vs;
  ry_log : (w1 = w /\ s1 = s /\ need <= s_cap s) \/
    (s_cap s < need /\ s_cap s1 = unew_cap al need (s_cap s) /\ w_log w1 = w_log w ++
      [if s_cap s =? 0 then EAlloc (s_ptr s1) (ustorage al chk (s_cap s1)) al
       else ERealloc (s_ptr s) (ustorage al chk (s_cap s)) al (s_ptr s1) (ustorage al chk (s_cap s1))]) }.

Lemma ustore_pos chk c : contract u d -> 0 < c -> 0 < ustorage al chk c.
Proof. intros K Hc. pose proof (pow2_pos _ (k_align u d K)). unfold ustorage. nia. Qed.

Lemma grown_roomy w w1 chk s need vs p : contract u d -> no_zst u d -> wf_blocks (w_blocks w) -> useq_at u d w chk s vs ->
  s_cap s < need -> grown (t0 al) chk (s_ptr s) (s_cap s) p (unew_cap al need (s_cap s)) w w1 ->
  roomy w chk s need vs w1 (uwith s p (unew_cap al need (s_cap s))).
Proof.
  intros K Z Hbl Hat Hneed Hg. pose proof (t0_wf _ (k_align u d K)) as Hw0. pose proof (pow2_pos _ (k_align u d K)) as Hp.
  set (cap' := unew_cap al need (s_cap s)) in *.
  assert (Hc : need <= cap' /\ s_cap s <= cap' /\ 0 < cap') by (unfold cap', unew_cap; lia).
  destruct Hc as (Hc1 & Hc2 & Hc3).
  pose proof Hg as (G1 & G2 & G3 & G4 & G5 & G6 & G7 & G8 & G9).
  destruct (fresh_apart _ _ _ _ G1) as (F0 & Fm & FW & Fb & Fa).
  pose proof Hat as (A1 & A2 & A3 & A4).
  assert (Hbytes : forall j, chk = true -> j < (s_cap s + 7) / 8 -> exists b, w_mem w (s_ptr s + s_cap s * al + j) = By b /\ b < 256).
  { intros j Hk Hj. destruct A4 as [[[E _] _]|(_ & _ & _ & _ & _ & H)]; [|apply H; auto].
    rewrite E in Hj. change ((0 + 7) / 8) with 0 in Hj. lia. }
  split; cbn [uwith s_len s_occ s_cap s_ptr].
  - auto.
  - exact Hc1.
  - rewrite G2. apply wf_blocks_cons; auto; [apply wf_rest, Hbl|]. apply (ustore_pos chk cap' K Hc3).
  - split; [exact A1|]. split; [exact A2|]. cbn [uwith s_occ s_cap s_ptr]. split; [lia|]. right.
    split; [exact Hc3|]. split; [rewrite G2; left; reflexivity|]. split; [exact G3|]. split; [exact Fm|]. split.
    + destruct A4 as [[_ ->]|(_ & _ & _ & _ & He & _)]; [exact Logic.I|].
      eapply uvalues_shift; [exact K| |exact He]. intros k Hk. apply G5. change (sp_align (t0 al)) with al. rewrite <- A2 in Hk. nia.
    + intros Hk j Hj. change (sp_align (t0 al)) with al in G6. rewrite (G6 Hk j Hj).
      destruct (N.ltb_spec j (bitmap_bytes (s_cap s))); [auto|]. exists 0. split; [reflexivity|lia].
  - intros b Hb Hn. assert (Hr : In b (rest_blocks (w_blocks w) (s_ptr s) (s_cap s))).
    { unfold rest_blocks, ustore_base in *. destruct (s_cap s =? 0); [exact Hb|]. apply in_without. auto. }
    specialize (Fb b Hr). change (storage_bytes (t0 al) chk cap') with (ustorage al chk cap') in Fb, G4.
    split; [rewrite G2; right; exact Hr|]. split; [|lia]. intros x Hx. apply G4. lia.
  - intros b Hb. rewrite G2 in Hb. destruct Hb as [<-|Hb]; [right; reflexivity|left]. unfold rest_blocks, ustore_base in *.
    destruct (s_cap s =? 0); [split; [exact Hb|intros []]|]. apply in_without in Hb. exact Hb.
  - intros Hk Hb _ o Ho Hoc. cbn [uwith s_occ s_cap s_ptr] in *. unfold ubit. cbn [uwith s_occ s_cap s_ptr].
    change (sp_align (t0 al)) with al in G6.
    assert (Hj : o / 8 < (cap' + 7) / 8).
    { pose proof (N.div_lt_upper_bound o 8 ((cap' + 7) / 8) ltac:(lia) ltac:(lia)). lia. }
    rewrite (G6 Hk _ Hj). unfold bitmap_bytes. destruct (N.ltb_spec (o / 8) ((s_cap s + 7) / 8)) as [Hl|Hl].
    + assert (Hpos : 0 < s_cap s).
      { destruct (N.eq_dec (s_cap s) 0) as [E|E]; [|lia]. rewrite E in Hl. change ((0 + 7) / 8) with 0 in Hl. lia. }
      assert (Ho' : o < 8 * ((s_cap s + 7) / 8)).
      { pose proof (N.div_mod o 8 ltac:(lia)). pose proof (N.mod_lt o 8 ltac:(lia)). lia. }
      exact (Hb Hpos o Ho' Hoc).
    + rewrite N.bits_0. split; [discriminate|]. intros Hin. exfalso.
      assert (Hv : Forall (fun n => 0 < n) (map sz vs)).
      { destruct A4 as [[_ ->]|(_ & _ & _ & _ & He & _)]; [constructor|]. eapply uvalues_pos; eauto. }
      pose proof (ustarts_lt al _ 0 o Hp Hv Hin) as Hlt. destruct (bitmap_cover (s_cap s)) as [Hcov _]. unfold bitmap_bytes in Hcov.
      pose proof (N.div_mod o 8 ltac:(lia)). pose proof (N.mod_lt o 8 ltac:(lia)). lia.
  - right. split; [exact Hneed|]. split; [reflexivity|]. exact G9.
Qed.
Lemma same_roomy w chk s need vs : contract u d -> wf_blocks (w_blocks w) -> useq_at u d w chk s vs ->
  need <= s_cap s -> 0 < s_cap s -> roomy w chk s need vs w s.
Proof.
  intros K Hbl Hat Hneed Hc. split; auto.
  2:{ intros b Hb. destruct (N.eq_dec (b_base b) (s_ptr s)) as [E|E]; [right; exact E|left]. split; [exact Hb|].
      unfold ustore_base. destruct (s_cap s =? 0); [intros []|]. intros [X|[]]. congruence. }
  intros b Hb Hn. split; [exact Hb|]. split; [auto|].
  destruct Hat as (_ & _ & _ & [[[E _] _]|(_ & B2 & _)]); [lia|]. unfold ustore_base in Hn. destruct (N.eqb_spec (s_cap s) 0); [lia|].
  cbn [In] in Hn. destruct Hbl as [Hw Hf]. destruct (FOP_in _ _ b (ublock u chk s) Hf Hb B2) as [->|[H|H]]; [exfalso; apply Hn; left; reflexivity| |];
    unfold blocks_apart in H; cbn [ublock b_base b_size] in H; lia.
Qed.

(** ** Marking the offset and building the object *)
Lemma umark_ok w chk s vs : contract u d -> wf_blocks (w_blocks w) -> useq_at u d w chk s vs -> s_occ s < s_cap s ->
  exists w', mark_offset_valid chk (s_ptr s) (s_cap s) (s_occ s) al w = Ok tt w' /\
    effect w w' (s_ptr s + s_cap s * al) (ustorage al chk (s_cap s) - s_cap s * al) [] [] /\
    useq_at u d w' chk s vs /\
    (chk = true -> forall o, ubit al w' s o = (ubit al w s o || (o =? s_occ s))%bool).
Proof.
  intros K Hbl Hat Hocc. pose proof (t0_wf _ (k_align u d K)) as Hw0. pose proof (pow2_pos _ (k_align u d K)) as Hp.
  destruct (mark_ok (t0 al) chk (s0 s) w _ Hw0 Hbl (shadow u d w chk s vs K Hat) Hocc) as (w' & E & (M1 & M2 & M3 & M4 & M5) & Hat' & _ & Hf & Hbit).
  rewrite (valign_sp _ Hw0) in E. change (sp_align (t0 al)) with al in *. cbn [s0 s_ptr s_cap s_occ] in *.
  exists w'. split; [exact E|].
  assert (Hso : same_outside (w_mem w) (w_mem w') (s_ptr s + s_cap s * al) (ustorage al chk (s_cap s) - s_cap s * al)).
  { destruct chk; [|rewrite (Hf eq_refl); intros x _; reflexivity]. intros x Hx. apply M5. unfold ustorage in Hx.
    assert (s_occ s / 8 < (s_cap s + 7) / 8).
    { pose proof (N.div_mod (s_occ s) 8 ltac:(lia)). pose proof (N.mod_lt (s_occ s) 8 ltac:(lia)).
      pose proof (N.div_mod (s_cap s + 7) 8 ltac:(lia)). pose proof (N.mod_lt (s_cap s + 7) 8 ltac:(lia)). lia. }
    lia. }
  split; [|split].
  - apply effect_intro. split; [exact Hso|]. rewrite without_nil, app_nil_r. auto.
  - eapply unshadow; [exact K|exact Hat|eexists; exact Hat'|]. intros k Hk. apply Hso. left. nia.
  - intros Hk o. exact (Hbit Hk o).
Qed.

Lemma useq_at_build w w' chk s vs n bases evs : contract u d -> wf_blocks (w_blocks w) -> useq_at u d w chk s vs ->
  s_occ s * al + n <= s_cap s * al -> 0 < s_cap s -> effect w w' (s_ptr s + s_occ s * al) n bases evs -> ~ In (s_ptr s) bases ->
  useq_at u d w' chk s vs /\ In (ublock u chk s) (w_blocks w') /\
  (forall x, s_ptr s + s_cap s * al <= x -> x < s_ptr s + ustorage al chk (s_cap s) -> w_mem w' x = w_mem w x).
Proof.
  intros K Hbl (A1 & A2 & A3 & A4) Hn Hc (U0 & U2 & _) Hnot.
  destruct A4 as [[[E _] _]|(B1 & B2 & B3 & B4 & B5 & B6)]; [lia|].
  assert (Hin : In (ublock u chk s) (w_blocks w')) by (rewrite U2; apply in_without; auto).
  assert (U1 : forall x, s_ptr s <= x < s_ptr s + ustorage al chk (s_cap s) ->
    x < s_ptr s + s_occ s * al \/ s_ptr s + s_occ s * al + n <= x -> w_mem w' x = w_mem w x).
  { intros x Hx Hx'. apply U0; [exact Hx'|]. intros b' Hb' Hin'. destruct Hbl as [Hw Hf].
    destruct (FOP_in _ _ (ublock u chk s) b' Hf B2 Hb') as [<-|[H|H]]; [contradiction| |]; unfold blocks_apart in H; cbn [ublock b_base b_size] in H; lia. }
  assert (Hb : forall x, s_ptr s + s_cap s * al <= x -> x < s_ptr s + ustorage al chk (s_cap s) -> w_mem w' x = w_mem w x) by (intros x Hx Hx'; apply U1; lia).
  split; [|auto]. split; [exact A1|]. split; [exact A2|]. split; [exact A3|]. right. repeat split; auto.
  - eapply uvalues_shift; [exact K| |exact B5]. intros k Hk. rewrite <- A2 in Hk. apply U1; [|left; lia]. unfold ustorage. nia.
  - intros Hk j Hj. rewrite Hb by (subst; unfold ustorage; lia). auto.
Qed.

(** ** push *)

Lemma rest_eq bl s : rest_blocks bl (s_ptr s) (s_cap s) = without bl (ustore_base s).
Proof. unfold rest_blocks, ustore_base. destruct (s_cap s =? 0); [now rewrite without_nil|reflexivity]. Qed.

Lemma useq_push_cases w chk s i vs : contract u d -> no_zst u d -> wf_blocks (w_blocks w) ->
  useq_at u d w chk s vs -> upushable d w s i ->
  (urefuses u w chk s i /\ exists w0 w', useq_push u chk i (w, s) = Panic (w', s) /\ (w0 = w \/ w0 = tick w) /\
     effect w0 w' 0 0 (m_frees d i) (m_idrop d i)) \/
  (exists l w1 s1 w2 w', u_cautious u i w = Ok (Some l) w /\
     let need := s_occ s + uunits al (u_lsize u l) in
     roomy w chk s need vs w1 s1 /\
     effect w1 w2 (s_ptr s1 + s_cap s1 * al) (ustorage al chk (s_cap s1) - s_cap s1 * al) [] [] /\
     useq_at u d w2 chk s1 vs /\
     (chk = true -> forall o, ubit al w2 s1 o = (ubit al w1 s1 o || (o =? s_occ s1))%bool) /\
     effect w2 w' (s_ptr s1 + s_occ s1 * al) (u_lsize u l) (m_frees d i) (m_log d i) /\
     ~ In (s_ptr s1) (m_frees d i) /\ 0 < u_lsize u l /\
     match m_makes d i with
     | Some v => useq_push u chk i (w, s) = Ok tt (w', mkS (s_ptr s1) (s_len s1 + 1) need (s_cap s1)) /\
         m_rep d (w_mem w') (s_ptr s1 + s_occ s1 * al) v /\ u_lsize u l = sz v
     | None => useq_push u chk i (w, s) = Panic (w', s1)
     end).
Proof.
  intros K Z Hbl Hat [Hi Hsep]. pose proof Z as [Z1 Z2]. destruct (k_idrop u d K w i Hi) as (wd & Ed & Ud).
  pose proof (t0_wf _ (k_align u d K)) as Hw0. pose proof (pow2_pos _ (k_align u d K)) as Hp. pose proof (pow2_le _ (k_align u d K)) as Hple.
  remember (useq_push u chk i (w, s)) as r eqn:Er. unfold useq_push in Er.
  destruct (k_cautious u d K w i Hi) as [Ec|[[l|] Ec]].
  { left. split; [left; intros l E; congruence|]. exists w, wd. split; [|split; [auto|exact Ud]].
    rewrite Er. apply bind_panic, lft_panic. eapply on_unwind_panic; eauto. }
  2:{ left. split; [left; intros l E; congruence|]. exists w, wd. split; [|split; [auto|exact Ud]].
      rewrite Er, (bind_ok _ _ _ _ _ (lft_ok _ _ s _ _ (on_unwind_ok _ (u_idrop u i) _ _ _ Ec))).
      now rewrite (bind_ok _ _ _ _ _ (lft_ok _ _ s _ _ Ed)). }
  rewrite (bind_ok _ _ _ _ _ (lft_ok _ _ s _ _ (on_unwind_ok _ (u_idrop u i) _ _ _ Ec))) in Er. cbv beta iota zeta in Er.
  pose proof (Z2 w i l Hi Ec) as Hn. set (need := s_occ s + uunits al (u_lsize u l)).
  pose proof (uunits_ge al (u_lsize u l) Hp) as Hug. pose proof (uunits_pos al _ Hp Hn) as Hup.
  pose proof Hat as (A1 & A2 & A3 & A4).
  assert (Hcb : s_cap s * al + (al - 1) <= ISIZE_MAX).
  { destruct A4 as [[[E _] _]|(_ & _ & H & _)]; [rewrite E; rewrite ISIZE_eq; change (2^29) with 536870912 in Hple; lia|].
    unfold ustorage in H. lia. }
  assert (Hbig : W <= u_lsize u l + (al - 1) \/ W <= need -> urefuses u w chk s i).
  { intros H. rewrite ISIZE_eq in Hcb. rewrite W_eq in H. change (2^29) with 536870912 in Hple. right. exists l. split; [exact Ec|]. cbv zeta. fold need. split.
    - unfold need in *. nia.
    - left. assert (need <= unew_cap al need (s_cap s)) by (unfold unew_cap; lia).
      rewrite ISIZE_eq. unfold ustorage. unfold need in *. nia. }
  assert (HbigP : (lft (u_idrop u i);;; panic) (w, s) = @Panic (world * sq) unit (wd, s)).
  { now rewrite (bind_ok _ _ _ _ _ (lft_ok _ _ s _ _ Ed)). }
  unfold checked_add in Er. destruct (N.ltb_spec (u_lsize u l + (al - 1)) W) as [HiW2|HiW2].
  2:{ left. split; [auto|]. exists w, wd. rewrite Er. auto. }
  change ((u_lsize u l + (al - 1)) / al) with (uunits al (u_lsize u l)) in Er. unfold bind at 1, get_sq at 1 in Er. fold need in Er.
  destruct (N.ltb_spec need W) as [Hnw|Hnw].
  2:{ left. split; [auto|]. exists w, wd. rewrite Er. auto. }
  (* after making room *)
  assert (Hrest : forall w1 s1, roomy w chk s need vs w1 s1 ->
     exists w2 w', effect w1 w2 (s_ptr s1 + s_cap s1 * al) (ustorage al chk (s_cap s1) - s_cap s1 * al) [] [] /\
     useq_at u d w2 chk s1 vs /\
     (chk = true -> forall o, ubit al w2 s1 o = (ubit al w1 s1 o || (o =? s_occ s1))%bool) /\
     effect w2 w' (s_ptr s1 + s_occ s1 * al) (u_lsize u l) (m_frees d i) (m_log d i) /\ ~ In (s_ptr s1) (m_frees d i) /\
     let r1 := (s2 <- get_sq;;
       lft (mark_offset_valid chk (s_ptr s2) (s_cap s2) (s_occ s2) al);;;
       y <- pmul (s_occ s2) al;;
       lft (u_init u i (wrapping_add (s_ptr s2) y) l);;;
       n <- padd (s_len s2) 1;; set_sq (mkS (s_ptr s2) n need (s_cap s2))) (w1, s1) in
     match m_makes d i with
     | Some v => r1 = Ok tt (w', mkS (s_ptr s1) (s_len s1 + 1) need (s_cap s1)) /\
         m_rep d (w_mem w') (s_ptr s1 + s_occ s1 * al) v /\ u_lsize u l = sz v
     | None => r1 = Panic (w', s1)
     end).
  { intros w1 s1 [[R1 R2] R3 R4 R5 R6 Rn R7 R8]. rename R5 into Hat1.
    assert (Hc1 : s_occ s1 < s_cap s1) by (rewrite R2; unfold need in R3; lia).
    destruct (umark_ok w1 chk s1 vs K R4 Hat1 Hc1) as (w2 & E2 & M & Hat2 & Hbit).
    pose proof (effect_mem _ _ _ _ _ M) as M1. pose proof M as (_ & M2 & _). rewrite without_nil in M2.
    destruct (useq_in_W u d w1 chk s1 vs R4 Hat1 ltac:(lia)) as [P0 PW].
    assert (Hend : s_occ s1 * al + u_lsize u l <= s_cap s1 * al) by (rewrite R2; unfold need in R3; nia).
    assert (Hsb : s_cap s1 * al <= ustorage al chk (s_cap s1)) by (unfold ustorage; lia).
    destruct (k_holds u d K w i Hi) as [Hh Hfr].
    assert (Hhold : forall b, In b (m_holds d i) -> In b (w_blocks w1) /\
       (forall x, b_base b <= x < b_base b + b_size b -> w_mem w1 x = w_mem w x) /\
       (b_base b + b_size b <= s_ptr s1 \/ s_ptr s1 + ustorage al chk (s_cap s1) <= b_base b)).
    { intros b Hb. apply R6; [apply Hh, Hb|apply Hsep, Hb]. }
    assert (Hnot : ~ In (s_ptr s1) (m_frees d i)).
    { intros Hin. specialize (Hfr _ Hin). apply in_map_iff in Hfr. destruct Hfr as (b & Eb & Hb).
      destruct (Hhold b Hb) as (H1 & _ & H2). destruct R4 as [R4 _]. specialize (R4 b H1). pose proof (ustore_pos chk (s_cap s1) K ltac:(lia)). lia. }
    assert (Hi2 : m_ok d w2 i).
    { apply (k_frame u d K w); auto. intros b Hb. destruct (Hhold b Hb) as (H1 & H2 & H3). split; [rewrite M2; exact H1|].
      intros x Hx. rewrite M1, H2 by lia. reflexivity. }
    pose proof Hat1 as (L1 & L2 & L3 & [[[E _] _]|(_ & Hin & Hss & Hmod & He & _)]); [lia|].
    set (D := s_ptr s1 + s_occ s1 * al).
    assert (Hpl : uplace u (without (w_blocks w2) (m_frees d i)) D (u_lsize u l)).
    { split; [unfold D; lia|]. split; [|split; [unfold D; lia|]].
      - unfold D. rewrite N.add_mod by lia. rewrite Hmod, N.mod_mul by lia. reflexivity.
      - right. exists (ublock u chk s1). split; [rewrite M2; apply in_without; auto|]. cbn [ublock b_base b_size]. unfold D. lia. }
    assert (Hap : forall b, In b (m_holds d i) -> apart (b_base b) (b_size b) D (u_lsize u l)).
    { intros b Hb. destruct (Hhold b Hb) as (_ & _ & H). unfold apart, D. lia. }
    pose proof (k_init u d K w w2 i l D Hi Ec Hi2 Hpl Hap) as B.
    assert (Hlen : s_len s1 + 1 < W).
    { rewrite L1. pose proof (utotal_len al _ Hp (uvalues_pos u d _ _ _ Z He)) as Htl. rewrite <- L2 in Htl. rewrite len_map in Htl. nia. }
    assert (Er1 : (s2 <- get_sq;;
       lft (mark_offset_valid chk (s_ptr s2) (s_cap s2) (s_occ s2) al);;;
       y <- pmul (s_occ s2) al;;
       lft (u_init u i (wrapping_add (s_ptr s2) y) l);;;
       n <- padd (s_len s2) 1;; set_sq (mkS (s_ptr s2) n need (s_cap s2))) (w1, s1) =
       (lft (u_init u i D l);;; n <- padd (s_len s1) 1;; set_sq (mkS (s_ptr s1) n need (s_cap s1))) (w2, s1)).
    { unfold bind at 1, get_sq at 1. rewrite (bind_ok _ _ _ _ _ (lft_ok _ _ s1 _ _ E2)).
      unfold pmul. destruct (N.ltb_spec (s_occ s1 * al) W); [|lia].
      unfold bind at 1, ret at 1. unfold wrapping_add. rewrite N.mod_small by lia. reflexivity. }
    cbv zeta. rewrite Er1. clear Er1.
    destruct (m_makes d i) as [v|].
    - destruct B as (w' & E1 & U1 & Rp & Hl). exists w2, w'. split; [exact M|]. split; [exact Hat2|]. split; [exact Hbit|]. split; [exact U1|]. split; [exact Hnot|].
      split; [|split; [exact Rp|exact (k_size u d K v l Hl)]].
      rewrite (bind_ok _ _ _ _ _ (lft_ok _ _ s1 _ _ E1)). unfold padd.
      destruct (N.ltb_spec (s_len s1 + 1) W); [|lia]. reflexivity.
    - destruct B as (w' & E1 & U1). exists w2, w'. split; [exact M|]. split; [exact Hat2|]. split; [exact Hbit|]. split; [exact U1|]. split; [exact Hnot|].
      rewrite (bind_panic _ _ _ _ (lft_panic _ _ s1 _ E1)). reflexivity. }
  destruct (N.ltb_spec (s_cap s) need) as [Hgrow|Hgrow].
  - (* growth *)
    assert (Hpre : store_pre (w_blocks w) (t0 al) chk (s_ptr s) (s_cap s)).
    { destruct A4 as [[[E _] _]|(B1 & B2 & B3 & _)]; [left; exact E|right; auto]. }
    destruct (try_realloc_cases (t0 al) chk w (s_ptr s) (s_cap s) need Hw0 Hbl Hpre) as (q & w1 & E & Hc).
    rewrite (valign_sp _ Hw0) in E. change (sp_align (t0 al)) with al in E.
    change (new_cap (t0 al) need (s_cap s)) with (unew_cap al need (s_cap s)) in Hc. set (cap' := unew_cap al need (s_cap s)) in *.
    destruct q as [[p c]|].
    + destruct Hc as [-> Hg]. right.
      assert (E1 : lft (on_unwind (must_realloc chk (s_ptr s) (s_cap s) need al) (u_idrop u i)) (w, s) = Ok (p, cap') (w1, s)).
      { apply lft_ok. unfold on_unwind, must_realloc. rewrite (bind_ok _ _ _ _ _ E). reflexivity. }
      pose proof (grown_roomy w w1 chk s need vs p K Z Hbl Hat Hgrow Hg) as Hroom. fold cap' in Hroom.
      destruct (Hrest w1 (uwith s p cap') Hroom) as (w2 & w' & M1 & M2 & M3 & M4 & M5 & M6).
      exists l, w1, (uwith s p cap'), w2, w'. split; [exact Ec|]. cbv zeta. fold need. split; [exact Hroom|].
      split; [exact M1|]. split; [exact M2|]. split; [exact M3|]. split; [exact M4|]. split; [exact M5|]. split; [exact Hn|].
      assert (EQ : forall k : unit -> SM unit,
        bind (r <- lft (on_unwind (must_realloc chk (s_ptr s) (s_cap s) need al) (u_idrop u i));;
              set_sq (mkS (fst r) (s_len s) (s_occ s) (snd r))) k (w, s) = k tt (w1, uwith s p cap')).
      { intros k. unfold bind at 1. rewrite (bind_ok _ _ _ _ _ E1). reflexivity. }
      rewrite EQ in Er. rewrite Er. exact M6.
    + left. unfold refused in Hc. change (storage_bytes (t0 al) chk cap') with (ustorage al chk cap') in Hc. change (sp_align (t0 al)) with al in Hc. rewrite rest_eq in Hc.
      assert (Hw1 : w1 = w \/ w1 = tick w) by (destruct Hc as [[-> _]|[-> _]]; auto).
      split.
      { right. exists l. split; [exact Ec|]. cbv zeta. fold need cap'. split; [exact Hgrow|]. destruct Hc as [[_ H]|[_ H]]; auto. }
      assert (Hi1 : m_ok d w1 i).
      { apply (k_frame u d K w); auto. intros b Hb. destruct (k_holds u d K w i Hi) as [Hh _]. destruct Hw1 as [->| ->]; (split; [apply Hh, Hb|reflexivity]). }
      destruct (k_idrop u d K w1 i Hi1) as (w' & Ed1 & U). exists w1, w'. split; [|split; [exact Hw1|exact U]].
      assert (E1 : lft (on_unwind (must_realloc chk (s_ptr s) (s_cap s) need al) (u_idrop u i)) (w, s) = Panic (w', s)).
      { apply lft_panic. unfold on_unwind, must_realloc. rewrite (bind_ok _ _ _ _ _ E). cbn [panic]. unfold panic. rewrite Ed1. reflexivity. }
      rewrite (bind_panic _ _ _ _ (bind_panic _ _ _ _ E1)) in Er. exact Er.
  - right. assert (Hc0 : 0 < s_cap s) by (unfold need in Hgrow; lia).
    pose proof (same_roomy w chk s need vs K Hbl Hat Hgrow Hc0) as Hroom.
    destruct (Hrest w s Hroom) as (w2 & w' & M1 & M2 & M3 & M4 & M5 & M6).
    exists l, w, s, w2, w'. split; [exact Ec|]. cbv zeta. fold need. split; [exact Hroom|].
    split; [exact M1|]. split; [exact M2|]. split; [exact M3|]. split; [exact M4|]. split; [exact M5|]. split; [exact Hn|].
    unfold bind at 1, ret at 1 in Er. rewrite Er. exact M6.
Qed.
End Push.
