(** ContractHist.v - boxes and sequences of one type stay what they are, whatever is done to the others. *)
From Verif Require Export ContractCrate.

Lemma NoDup_app_excl {A} (xs ys : list A) x : NoDup (xs ++ ys) -> In x xs -> ~ In x ys.
Proof.
  induction xs as [|a xs IH]; intros H Hx Hy; [contradiction|]. cbn in H. inversion H; subst.
  destruct Hx as [->|Hx]; [|apply IH; auto]. apply H2, in_app_iff. auto.
Qed.
Lemma NoDup_app_remove_l {A} (xs ys : list A) : NoDup (xs ++ ys) -> NoDup ys.
Proof. induction xs as [|a xs IH]; intros H; [exact H|]. cbn in H. inversion H; subst. auto. Qed.

Section Hist.
Context {L I V : Type} (u : impl L I) (d : meaning L I V).
Notation al := (u_align u).
Notation sz := (m_size d).

Lemma alloced_untouched w p n a : valid_answer (w_blocks w) p n a = true -> untouched w (alloced w p n a) [].
Proof.
  intros Hv b Hb _. destruct (fresh_apart _ _ _ _ Hv) as (_ & _ & _ & Fb & _). specialize (Fb b Hb). split; [right; exact Hb|].
  intros x Hx. cbn. unfold fill. destruct (N.leb_spec p x), (N.ltb_spec x (p + n)); cbn; try reflexivity; lia.
Qed.
Lemma new_untouched w w' p n bs evs : wf_blocks (w_blocks w) -> 0 < n -> valid_answer (w_blocks w) p n al = true ->
  effect (alloced w p n al) w' p n bs evs ->
  w_blocks w' = mkB p n al true :: without (w_blocks w) bs ->
  untouched w w' bs /\ wf_blocks (w_blocks w') /\ (forall b, In b (w_blocks w) -> b_base b <> p).
Proof.
  intros Hbl Hn Hv U Hb'. destruct (fresh_apart _ _ _ _ Hv) as (F0 & Fm & FW & Fb & Fa).
  assert (Hne : forall b, In b (w_blocks w) -> b_base b <> p).
  { intros b Hb. destruct Hbl as [H _]. specialize (H b Hb). specialize (Fb b Hb). lia. }
  assert (Hbl1 : wf_blocks (w_blocks (alloced w p n al))) by (cbn; apply wf_blocks_cons; auto).
  split; [|split; [|exact Hne]].
  - pose proof (effect_untouched _ _ _ _ _ _ (mkB p n al true) Hbl1 U (or_introl eq_refl)) as Hu.
    specialize (Hu (N.le_refl _) (N.le_refl _)). cbn [b_base] in Hu. intros b Hb Hnb.
    destruct (alloced_untouched w p n al Hv b Hb ltac:(intros [])) as [H1 H2].
    destruct (Hu b H1) as [H3 H4]; [intros [E|E]; [apply (Hne b Hb); congruence|contradiction]|]. split; [exact H3|].
    intros x Hx. rewrite H4, H2 by exact Hx. reflexivity.
  - eapply effect_wf; [exact Hbl1|exact U].
Qed.

Lemma uowned_new_ok w i :
  contract u d -> no_zst u d -> wf_blocks (w_blocks w) -> m_ok d w i ->
  match uowned_new_in u i w with
  | Ok p w' => exists v, m_makes d i = Some v /\ uobj_at u d w' p v /\
      w_blocks w' = mkB p (m_size d v) (al) false :: without (w_blocks w) (m_frees d i) /\
      wf_blocks (w_blocks w') /\ untouched w w' (m_frees d i) /\ w_log w' = w_log w ++ m_log d i
  | Panic w' => wf_blocks (w_blocks w') /\ untouched w w' (m_frees d i) /\
      ((w_blocks w' = without (w_blocks w) (m_frees d i) /\ w_log w' = w_log w ++ m_idrop d i) \/
       (m_makes d i = None /\ w_log w' = w_log w ++ m_log d i /\ exists p n,
          w_blocks w' = mkB p n (al) false :: without (w_blocks w) (m_frees d i)))
  | UB _ => False
  end.
Proof.
  intros K [Z1 Z2] Hbl Hi. unfold uowned_new_in.
  destruct (k_idrop u d K w i Hi) as (wd & Ed & Ud).
  assert (Hd : wf_blocks (w_blocks wd) /\ untouched w wd (m_frees d i) /\
    ((w_blocks wd = without (w_blocks w) (m_frees d i) /\ w_log wd = w_log w ++ m_idrop d i) \/
     (m_makes d i = None /\ w_log wd = w_log w ++ m_log d i /\ exists p n,
        w_blocks wd = mkB p n (u_align u) false :: without (w_blocks w) (m_frees d i)))).
  { split; [eapply effect_wf; eauto|]. split; [eapply effect_untouched0; eauto|]. left. split; apply Ud. }
  destruct (k_cautious u d K w i Hi) as [Ec|[r Ec]].
  { rewrite (bind_panic _ _ _ _ (on_unwind_panic _ (u_idrop u i) _ _ _ Ec Ed)). exact Hd. }
  step (on_unwind_ok _ (u_idrop u i) _ _ _ Ec). destruct r as [l|]; [|step Ed; exact Hd].
  rewrite (fsa_pow (u_align u) (u_lsize u l) (k_align u d K)).
  destruct (N.leb_spec (u_lsize u l + (u_align u - 1)) ISIZE_MAX) as [Hfit|Hfit]; [|step Ed; exact Hd].
  pose proof (Z2 w i l Hi Ec) as Hn. clear Hd.
  destruct (bump_cases (u_lsize u l) (u_align u) w) as [(p & Hv & E)|[Hno E]].
  2:{ assert (Hi' : m_ok d (tick w) i).
      { apply (k_frame u d K w); [exact Hi|]. intros b Hb. split; [exact (proj1 (k_holds u d K w i Hi) b Hb)|reflexivity]. }
      destruct (k_idrop u d K (tick w) i Hi') as (w' & E' & U').
      assert (E2 : on_unwind (bump_alloc (u_lsize u l) (u_align u)) (u_idrop u i) w = Panic w') by (unfold on_unwind; now rewrite E, E').
      rewrite (bind_panic _ _ _ _ E2). split; [eapply (effect_wf (tick w)); eauto|]. split; [exact (effect_untouched0 (tick w) w' _ _ Hbl U')|].
      left. split; apply U'. }
  destruct (N.eqb_spec (u_lsize u l) 0) as [E0|_]; [lia|]. destruct (fresh_apart _ _ _ _ Hv) as (F0 & Fm & FW & Fb & Fa).
  set (w1 := mkW (fill (w_mem w) p (u_lsize u l) Un) (mkB p (u_lsize u l) (u_align u) false :: w_blocks w) (w_alloc w) (Datatypes.S (w_tick w)) (w_log w)) in *.
  destruct (ok_fresh u d w w1 i p _ false K Hbl Hi Hv Hn eq_refl (fill_out _ _ _ _)) as (R1 & R2 & R3 & R4).
  assert (Hbl1 : wf_blocks (w_blocks w1)) by (cbn; apply wf_blocks_cons; auto).
  assert (E2 : on_unwind (bump_alloc (u_lsize u l) (u_align u)) (u_idrop u i) w = Ok p w1) by (unfold on_unwind; now rewrite E).
  step E2. pose proof (k_init u d K w w1 i l p Hi Ec R1 R2 R3) as B.
  assert (HU : forall w' evs, effect w1 w' p (u_lsize u l) (m_frees d i) evs -> untouched w w' (m_frees d i)).
  { intros w' evs U b Hb Hnb. pose proof (effect_untouched _ _ _ _ _ _ (mkB p (u_lsize u l) (u_align u) false) Hbl1 U (or_introl eq_refl)) as Hu.
    specialize (Hu (N.le_refl _) (N.le_refl _)). cbn [b_base] in Hu. specialize (Fb b Hb). destruct Hbl as [Hw _]. specialize (Hw b Hb).
    destruct (Hu b (or_intror Hb)) as [H3 H4]; [intros [X|X]; [lia|contradiction]|]. split; [exact H3|].
    intros x Hx. rewrite H4 by exact Hx. subst w1. cbn [w_mem]. apply fill_out. lia. }
  destruct (m_makes d i) as [v|].
  - destruct B as (w' & E1 & U1 & Rp & Hl). step E1. pose proof (k_size u d K v l Hl) as Hs. exists v. split; [reflexivity|].
    pose proof U1 as (_ & U2 & _ & _ & U5). split.
    { split; [|exact Rp]. rewrite <- Hs, U2. exact R2. }
    rewrite <- Hs. split; [rewrite U2; exact R4|]. split; [eapply effect_wf; eauto|]. split; [eapply HU; eauto|exact U5].
  - destruct B as (w' & E1 & U1). rewrite (bind_panic _ _ _ _ E1). split; [eapply effect_wf; eauto|]. split; [eapply HU; eauto|].
    right. split; [reflexivity|]. pose proof U1 as (_ & U2 & _ & _ & U5). split; [exact U5|]. exists p, (u_lsize u l). rewrite U2. exact R4.
Qed.

(** A partly consumed iterator. *)
Lemma upull_ok w it vs fs : contract u d -> uiter_at u d w it vs ->
  exists w' it' n evs, upull u fs it w = Ok it' w' /\ uiter_at u d w' it' (skipn (length fs) vs) /\
    it_ptr it' = it_ptr it + n /\ n + utotal al (map sz (skipn (length fs) vs)) * al = utotal al (map sz vs) * al /\
    effect w w' (it_ptr it) n [] evs /\ evs ++ udrops d (skipn (length fs) vs) = unforgotten d fs vs.
Proof.
  intros K. pose proof (pow2_pos _ (k_align u d K)) as Hp. revert w it vs; induction fs as [|b fs IH]; intros w it vs Ha; cbn [upull].
  - exists w, it, 0, []. split; [reflexivity|]. split; [exact Ha|]. split; [lia|]. split; [reflexivity|].
    split; [|reflexivity]. unfold effect. rewrite app_nil_r, without_nil. auto.
  - destruct vs as [|v vs].
    + step (uiter_next_nil u d w it Ha). exists w, it, 0, []. split; [reflexivity|]. split; [exact Ha|]. split; [lia|]. split; [reflexivity|].
      split; [|reflexivity]. unfold effect. rewrite app_nil_r, without_nil. auto.
    + destruct (uiter_next_cons u d w it v vs K Ha) as (it1 & E & Ha1 & Eit). step E. cbn [fst snd length skipn unforgotten].
      pose proof (uunits_ge al (sz v) Hp) as Hc.
      assert (Hx : exists w1, (if b then ret tt else uowned_drop u (it_ptr it)) w = Ok tt w1 /\
        effect w w1 (it_ptr it) (sz v) [] (if b then [] else m_drops d v)).
      { destruct b.
        - exists w. split; [reflexivity|]. unfold effect. rewrite app_nil_r, without_nil. auto.
        - apply (uowned_drop_ok u d w _ v K). apply Ha. }
      destruct Hx as (w1 & E1 & U). step E1. pose proof (effect_mem _ _ _ _ _ U) as U1. destruct U as (_ & U2 & U3 & U4 & U5).
      rewrite without_nil in U2.
      assert (Ha2 : uiter_at u d w1 it1 vs).
      { destruct Ha1 as (I1 & I2 & I3). split; [exact I1|]. split; [exact I2|]. apply (uobjs_range u d w); auto.
        intros x Hx. apply U1. right. subst it1. cbn [it_ptr] in Hx. lia. }
      destruct (IH w1 it1 vs Ha2) as (w' & it' & n & evs & E2 & A & Ep & En & X & Ev). pose proof (effect_mem _ _ _ _ _ X) as X1.
      destruct X as (_ & X2 & X3 & X4 & X5). rewrite without_nil in X2.
      exists w', it', (uunits al (sz v) * al + n), ((if b then [] else m_drops d v) ++ evs). split; [exact E2|]. split; [exact A|].
      subst it1. cbn [it_ptr map utotal] in *. split; [lia|]. split; [lia|]. split; [|rewrite <- Ev; now rewrite <- app_assoc].
      split; [|split; [|split; [|split]]].
      * intros x Hx _. rewrite X1, U1 by lia. reflexivity.
      * rewrite without_nil. congruence.
      * congruence.
      * congruence.
      * rewrite X5, U5. now rewrite app_assoc.
Qed.
Lemma udrain_ok w chk s vs fs : contract u d -> wf_blocks (w_blocks w) -> useq_at u d w chk s vs ->
  exists w', udrain u chk fs (w, s) = Ok tt (w', mkS (s_ptr s) 0 0 (s_cap s)) /\
    w_blocks w' = w_blocks w /\ untouched w w' (ustore_base s) /\
    useq_at u d w' chk (mkS (s_ptr s) 0 0 (s_cap s)) [] /\ w_log w' = w_log w ++ unforgotten d fs vs.
Proof.
  intros K Hbl Hat. pose proof (pow2_pos _ (k_align u d K)) as Hp.
  destruct (utake_ok u d w chk s vs K Hbl Hat) as (w1 & E & Hs & Hit & Hat1). unfold udrain. rewrite (bind_ok _ _ _ _ _ E).
  set (s1 := mkS (s_ptr s) 0 0 (s_cap s)) in *.
  destruct (upull_ok w1 (seq_iter s) vs fs K Hit) as (w2 & it2 & n & evs & E2 & A & Ep & En & X & Ev).
  rewrite (bind_ok _ _ _ _ _ (lft_ok _ _ s1 _ _ E2)).
  destruct (uelems_drop_ok u d w2 it2 _ K A) as (w3 & E3 & Y). rewrite (lft_ok _ _ s1 _ _ E3).
  pose proof (effect_mem _ _ _ _ _ X) as X1. destruct X as (_ & X2 & _ & _ & X5).
  pose proof (effect_mem _ _ _ _ _ Y) as Y1. destruct Y as (_ & Y2 & _ & _ & Y5). rewrite without_nil in X2, Y2.
  destruct Hs as (B1 & B2 & _ & _ & B5). rewrite Ep in Y1. cbn [seq_iter it_ptr] in *.
  assert (Hm : forall x, x < s_ptr s \/ s_ptr s + utotal al (map sz vs) * al <= x -> w_mem w3 x = w_mem w x).
  { intros x Hx. rewrite Y1, X1, B1 by lia. reflexivity. }
  assert (HB : w_blocks w3 = w_blocks w) by congruence.
  pose proof Hat as (A1 & A2 & A3 & A4). rewrite <- A2 in Hm.
  exists w3. split; [reflexivity|]. split; [exact HB|]. split; [|split].
  - intros b Hb Hn. rewrite HB. split; [exact Hb|]. intros x Hx. apply Hm. unfold ustore_base in Hn.
    destruct A4 as [[[E0 _] ->]|(C1 & C2 & C3 & _)].
    + cbn in A2. lia.
    + destruct (N.eqb_spec (s_cap s) 0) as [|_]; [lia|]. destruct Hbl as [Hw Hf].
      destruct (FOP_in _ _ b (ublock u chk s) Hf Hb C2) as [->|[H|H]]; [exfalso; apply Hn; left; reflexivity| |];
        unfold blocks_apart in H; cbn [ublock b_base b_size] in H; unfold ustorage in H; nia.
  - destruct Hat1 as (H1 & H2 & H3 & H4). split; [exact H1|]. split; [exact H2|]. split; [exact H3|].
    destruct H4 as [H4|(C1 & C2 & C3 & C4 & C5 & C6)]; [left; exact H4|right]. cbn [s1 s_cap s_ptr] in *. split; [exact C1|].
    split; [rewrite HB, <- B2; exact C2|]. split; [exact C3|]. split; [exact C4|]. split; [exact Logic.I|].
    intros Hk j Hj. rewrite Hm by nia. rewrite <- B1. apply C6; auto.
  - rewrite Y5, X5, B5, <- app_assoc. now rewrite Ev.
Qed.

Definition box_ok (w : world) (e : bool * N * V) : Prop :=
  uobj_at u d w (hbase e) (snd e) /\ In (mkB (hbase e) (sz (snd e)) al (fst (fst e))) (w_blocks w).
Definition sq_ok (w : world) (e : bool * sq * list V) : Prop :=
  useq_at u d w (fst (fst e)) (snd (fst e)) (snd e) /\
  (fst (fst e) = true -> umarks u d w (snd (fst e)) (snd e)).
Definition uinv (w : world) (bx : list (bool * N * V)) (ss : list (bool * sq * list V)) : Prop :=
  wf_blocks (w_blocks w) /\ Forall (box_ok w) bx /\ Forall (sq_ok w) ss /\ NoDup (map hbase bx ++ stores ss).
(** Every heap block belongs to a value, but for [n]. *)
Definition cover (w : world) (bx : list (bool * N * V)) (ss : list (bool * sq * list V)) (n : nat) : Prop :=
  exists others, (length others <= n)%nat /\
    forall b, In b (w_blocks w) -> b_heap b = true -> In (b_base b) (map hbase bx ++ stores ss ++ others).

Lemma boxes_frame w w' bs bx : contract u d -> untouched w w' bs -> Forall (box_ok w) bx ->
  (forall p, In p (map hbase bx) -> ~ In p bs) -> Forall (box_ok w') bx.
Proof.
  intros K Hu Hf Hn. rewrite Forall_forall in *. intros e He. destruct (Hf e He) as [H1 H2].
  assert (Hp : ~ In (hbase e) bs) by (apply Hn, in_map, He). split; [|apply (Hu _ H2 Hp)].
  eapply (uobj_frame u d w w' bs _ _ _ K Hu H1 H2); cbn; auto; lia.
Qed.
Lemma seqs_frame w w' bs ss : contract u d -> untouched w w' bs -> Forall (sq_ok w) ss ->
  (forall p, In p (stores ss) -> ~ In p bs) -> Forall (sq_ok w') ss.
Proof.
  intros K Hu Hf Hn. rewrite Forall_forall in *. intros e He. destruct (Hf e He) as [H1 H2].
  destruct (useq_frame u d w w' bs _ _ _ K Hu H1) as [H3 H4].
  - intros p Hp. apply Hn. apply in_flat_map. exists e. auto.
  - split; [exact H3|]. intros Hk. auto.
Qed.
Lemma stores_app (xs ys : list (bool * sq * list V)) : stores (xs ++ ys) = stores xs ++ stores ys.
Proof. apply flat_map_app. Qed.
Lemma stores_cons (e : bool * sq * list V) ys : stores (e :: ys) = ustore_base (snd (fst e)) ++ stores ys.
Proof. reflexivity. Qed.
Lemma stores_mid (xs : list (bool * sq * list V)) c s vs ys :
  Permutation (stores (xs ++ (c, s, vs) :: ys)) (ustore_base s ++ stores (xs ++ ys)).
Proof. rewrite !stores_app, stores_cons. cbn [fst snd]. rewrite !app_assoc. apply Permutation_app_tail, Permutation_app_comm. Qed.

Lemma owned_rest w bx rest ss i : hands_over d w bx rest ss i -> uinv w bx ss ->
  Forall (box_ok w) rest /\ NoDup (map hbase rest ++ stores ss).
Proof.
  intros (_ & (own & Hp & _) & _) (_ & Hb & _ & Hn). split.
  - apply (Permutation_Forall Hp) in Hb. apply Forall_app in Hb. tauto.
  - assert (HP : Permutation (map hbase bx ++ stores ss) (map hbase own ++ (map hbase rest ++ stores ss))).
    { rewrite app_assoc, <- map_app. apply Permutation_app_tail, Permutation_map, Hp. }
    apply (Permutation_NoDup HP) in Hn. apply NoDup_app_remove_l in Hn. exact Hn.
Qed.

Lemma base_live w bx ss p : contract u d -> Forall (box_ok w) bx -> Forall (sq_ok w) ss -> In p (map hbase bx ++ stores ss) ->
  exists b, In b (w_blocks w) /\ b_base b = p.
Proof.
  intros K Hb Hs Hp. rewrite Forall_forall in *. apply in_app_iff in Hp. destruct Hp as [Hp|Hp].
  - apply in_map_iff in Hp. destruct Hp as (e & <- & He). destruct (Hb e He) as [_ H]. eexists. split; [exact H|reflexivity].
  - apply in_flat_map in Hp. destruct Hp as (e & He & Hp). destruct (Hs e He) as [(_ & _ & _ & H) _].
    unfold ustore_base in Hp. destruct (N.eqb_spec (s_cap (snd (fst e))) 0); [contradiction|]. destruct Hp as [<-|[]].
    destruct H as [[[E _] _]|(_ & H & _)]; [lia|]. eexists. split; [exact H|reflexivity].
Qed.

Lemma box_step w bx rest ss i p w' v : contract u d -> no_zst u d -> uinv w bx ss -> hands_over d w bx rest ss i ->
  uvbox_new u i w = Ok p w' -> m_makes d i = Some v -> uinv w' ((true, p, v) :: rest) ss.
Proof.
  intros K Z Hinv Hh E Hm. destruct (owned_rest _ _ _ _ _ Hh Hinv) as [Hr Hnd]. destruct Hinv as (Hbl & _ & Hs & _).
  destruct Hh as (Hi & _ & Hfr). pose proof Z as [_ Z2].
  destruct (uvbox_new_cases u d w i K Z Hbl Hi) as [[(_ & wx & E' & _)|(l & _ & _ & E')]|(l & q & w2 & Ec & Hv & U & Hb' & H)]; try congruence.
  rewrite Hm in H. destruct H as (E' & Ho & Hl). assert (q = p /\ w2 = w') as [-> ->] by (split; congruence).
  destruct (new_untouched w w' p _ _ _ Hbl (Z2 w i l Hi Ec) Hv U Hb') as (Hu & Hbl' & Hne).
  split; [exact Hbl'|]. split; [constructor|split].
  - split; [exact Ho|]. cbn [fst snd hbase]. rewrite Hb', <- Hl. left. reflexivity.
  - eapply boxes_frame; eauto. intros x Hx Hf. apply (Hfr x Hf), in_app_iff. auto.
  - eapply seqs_frame; eauto. intros x Hx Hf. apply (Hfr x Hf), in_app_iff. auto.
  - cbn [map hbase fst snd app]. constructor; [|exact Hnd]. intros Hin.
    destruct (base_live w rest ss p K Hr Hs Hin) as (b & Hb & Eb). exact (Hne b Hb Eb).
Qed.
Lemma box_panic_step w bx rest ss i w' : contract u d -> no_zst u d -> uinv w bx ss -> hands_over d w bx rest ss i ->
  uvbox_new u i w = Panic w' -> uinv w' rest ss.
Proof.
  intros K Z Hinv Hh E. destruct (owned_rest _ _ _ _ _ Hh Hinv) as [Hr Hnd]. destruct Hinv as (Hbl & _ & Hs & _).
  destruct Hh as (Hi & _ & Hfr). pose proof Z as [_ Z2].
  assert (Hall : untouched w w' (m_frees d i) /\ wf_blocks (w_blocks w')).
  { destruct (uvbox_new_cases u d w i K Z Hbl Hi) as [[(_ & wx & E' & U)|(l & _ & _ & E')]|(l & q & w2 & Ec & Hv & U & Hb' & H)]; [|congruence|].
    - assert (wx = w') as -> by congruence. split; [eapply effect_untouched0; eauto|eapply effect_wf; eauto].
    - destruct (m_makes d i); [destruct H as (H & _); congruence|]. assert (w2 = w') as -> by congruence.
      destruct (new_untouched w w' q _ _ _ Hbl (Z2 w i l Hi Ec) Hv U Hb') as (Hu & Hbl' & _). auto. }
  destruct Hall as [Hu Hbl']. split; [exact Hbl'|]. split; [|split; [|exact Hnd]].
  - eapply boxes_frame; eauto. intros x Hx Hf. apply (Hfr x Hf), in_app_iff. auto.
  - eapply seqs_frame; eauto. intros x Hx Hf. apply (Hfr x Hf), in_app_iff. auto.
Qed.
Lemma push_step w bx rest xs chk s vs ys i w' s' vs' : contract u d -> no_zst u d ->
  uinv w bx (xs ++ (chk, s, vs) :: ys) -> hands_over d w bx rest (xs ++ (chk, s, vs) :: ys) i ->
  wf_blocks (w_blocks w') -> untouched w w' (ustore_base s ++ m_frees d i) -> apart_from w s s' ->
  useq_at u d w' chk s' vs' -> (chk = true -> umarks u d w' s' vs') ->
  uinv w' rest (xs ++ (chk, s', vs') :: ys).
Proof.
  intros K Z Hinv Hh Hbl' Hu Hap Hat' Hm'. destruct (owned_rest _ _ _ _ _ Hh Hinv) as [Hr Hnd]. destruct Hinv as (Hbl & _ & Hs & _).
  destruct Hh as (Hi & _ & Hfr).
  assert (HP : forall c t zs, Permutation (map hbase rest ++ stores (xs ++ (c, t, zs) :: ys)) (ustore_base t ++ (map hbase rest ++ stores (xs ++ ys)))).
  { intros c t zs. etransitivity; [apply Permutation_app_head, stores_mid|]. rewrite !app_assoc. apply Permutation_app_tail, Permutation_app_comm. }
  apply (Permutation_NoDup (HP chk s vs)) in Hnd.
  assert (Hoth : forall x, In x (map hbase rest ++ stores (xs ++ ys)) -> ~ In x (ustore_base s ++ m_frees d i)).
  { intros x Hx Hin. apply in_app_iff in Hin. destruct Hin as [Hin|Hin].
    - revert Hx. eapply NoDup_app_excl; [exact Hnd|exact Hin].
    - apply (Hfr x Hin). eapply Permutation_in; [symmetry; apply HP|]. apply in_app_iff. right. exact Hx. }
  assert (Hso : Forall (sq_ok w) (xs ++ ys)).
  { apply Forall_app in Hs. destruct Hs as [H1 H2]. inversion H2; subst. apply Forall_app. auto. }
  assert (Hso' : Forall (sq_ok w') (xs ++ ys)).
  { eapply seqs_frame; eauto. intros x Hx. apply Hoth, in_app_iff. auto. }
  split; [exact Hbl'|]. split; [|split].
  - eapply boxes_frame; eauto. intros x Hx. apply Hoth, in_app_iff. auto.
  - apply Forall_app in Hso'. destruct Hso' as [H1 H2]. apply Forall_app. split; [exact H1|]. constructor; [|exact H2]. split; assumption.
  - eapply Permutation_NoDup; [symmetry; apply HP|].
    assert (Hnd2 : NoDup (map hbase rest ++ stores (xs ++ ys))) by (eapply NoDup_app_remove_l; exact Hnd).
    unfold ustore_base at 1. destruct (N.eqb_spec (s_cap s') 0) as [|Hc]; [exact Hnd2|]. constructor; [|exact Hnd2].
    intros Hin. destruct (base_live w rest (xs ++ ys) (s_ptr s') K Hr Hso Hin) as (b & Hb & Eb).
    apply (Hap b Hb).
    + rewrite Eb. intros Hx. apply (Hoth _ Hin), in_app_iff. auto.
    + rewrite Eb. unfold ustore_base. destruct (N.eqb_spec (s_cap s') 0); [contradiction|left; reflexivity].
Qed.

Lemma owned_step w bx rest ss i p w' v : contract u d -> no_zst u d -> uinv w bx ss -> hands_over d w bx rest ss i ->
  uowned_new_in u i w = Ok p w' -> m_makes d i = Some v -> uinv w' ((false, p, v) :: rest) ss.
Proof.
  intros K Z Hinv Hh E Hm. destruct (owned_rest _ _ _ _ _ Hh Hinv) as [Hr Hnd]. destruct Hinv as (Hbl & _ & Hs & _).
  destruct Hh as (Hi & _ & Hfr). pose proof (uowned_new_ok w i K Z Hbl Hi) as H. rewrite E in H.
  destruct H as (v' & Em & Ho & Hb' & Hbl' & Hu & _). assert (v' = v) as -> by congruence.
  split; [exact Hbl'|]. split; [constructor|split].
  - split; [exact Ho|]. cbn [fst snd hbase]. rewrite Hb'. left. reflexivity.
  - eapply boxes_frame; eauto. intros x Hx Hf. apply (Hfr x Hf), in_app_iff. auto.
  - eapply seqs_frame; eauto. intros x Hx Hf. apply (Hfr x Hf), in_app_iff. auto.
  - cbn [map hbase fst snd app]. constructor; [|exact Hnd]. intros Hin.
    destruct (base_live w rest ss p K Hr Hs Hin) as (b & Hb & Eb).
    assert (Hw : In b (without (w_blocks w) (m_frees d i))).
    { apply in_without. split; [exact Hb|]. rewrite Eb. intros Hf. exact (Hfr p Hf Hin). }
    rewrite Hb' in Hbl'. destruct Hbl' as [H1 H2]. inversion H2 as [|x l Hap _]; subst. rewrite Forall_forall in Hap.
    specialize (Hap b Hw). pose proof (H1 _ (or_introl eq_refl)). pose proof (H1 b (or_intror Hw)). unfold blocks_apart in Hap. cbn in *. lia.
Qed.
(** A change of the state that leaves these values alone. *)
Lemma frame_step w w' bs bx ss : contract u d -> uinv w bx ss -> wf_blocks (w_blocks w') -> untouched w w' bs ->
  (forall p, In p (map hbase bx ++ stores ss) -> ~ In p bs) -> uinv w' bx ss.
Proof.
  intros K (Hbl & Hb & Hs & Hn) Hbl' Hu Ho. split; [exact Hbl'|]. split; [|split; [|exact Hn]].
  - eapply boxes_frame; eauto. intros x Hx. apply Ho, in_app_iff. auto.
  - eapply seqs_frame; eauto. intros x Hx. apply Ho, in_app_iff. auto.
Qed.
Lemma rest_inv w bx rest ss i : hands_over d w bx rest ss i -> uinv w bx ss -> uinv w rest ss.
Proof.
  intros Hh Hinv. destruct (owned_rest _ _ _ _ _ Hh Hinv) as [Hr Hn]. destruct Hinv as (Hbl & _ & Hs & _).
  split; [exact Hbl|]. split; [exact Hr|]. split; [exact Hs|exact Hn].
Qed.
(** Without one of its values. *)
Lemma less_box w xs e ys ss : uinv w (xs ++ e :: ys) ss ->
  uinv w (xs ++ ys) ss /\ box_ok w e /\ forall p, In p (map hbase (xs ++ ys) ++ stores ss) -> p <> hbase e.
Proof.
  intros (Hbl & Hb & Hs & Hn). apply Forall_app in Hb. destruct Hb as [Hb1 Hb2]. inversion Hb2 as [|e' l' He Hb3]; subst.
  rewrite map_app, <- app_assoc in Hn. cbn [map app] in Hn.
  pose proof (NoDup_remove _ _ _ Hn) as [Hn1 Hn2]. rewrite app_assoc, <- map_app in Hn1, Hn2.
  split; [|split; [exact He|intros p Hp ->; contradiction]].
  split; [exact Hbl|]. split; [apply Forall_app; auto|]. split; [exact Hs|exact Hn1].
Qed.
Lemma less_seq w bx xs c s vs ys : uinv w bx (xs ++ (c, s, vs) :: ys) ->
  uinv w bx (xs ++ ys) /\ sq_ok w (c, s, vs) /\ forall p, In p (map hbase bx ++ stores (xs ++ ys)) -> ~ In p (ustore_base s).
Proof.
  intros (Hbl & Hb & Hs & Hn). apply Forall_app in Hs. destruct Hs as [Hs1 Hs2]. inversion Hs2 as [|e' l' He Hs3]; subst.
  assert (HP : Permutation (map hbase bx ++ stores (xs ++ (c, s, vs) :: ys)) (ustore_base s ++ (map hbase bx ++ stores (xs ++ ys)))).
  { etransitivity; [apply Permutation_app_head, stores_mid|]. rewrite !app_assoc. apply Permutation_app_tail, Permutation_app_comm. }
  apply (Permutation_NoDup HP) in Hn. split; [|split; [exact He|]].
  - split; [exact Hbl|]. split; [exact Hb|]. split; [apply Forall_app; auto|eapply NoDup_app_remove_l; exact Hn].
  - intros x Hx Hin. revert Hx. eapply NoDup_app_excl; [exact Hn|exact Hin].
Qed.
Lemma same_base w b b' : wf_blocks (w_blocks w) -> In b (w_blocks w) -> In b' (w_blocks w) -> b_base b = b_base b' -> b = b'.
Proof.
  intros [Hw Hf] H1 H2 E. destruct (FOP_in _ _ b b' Hf H1 H2) as [X|[X|X]]; [exact X| |];
    unfold blocks_apart in X; pose proof (Hw b H1); pose proof (Hw b' H2); lia.
Qed.
(** The ways in which the owners of the heap blocks change. *)
Lemma cover_rest w bx rest ss i n : hands_over d w bx rest ss i -> cover w bx ss n ->
  exists others, (length others <= n)%nat /\ forall b, In b (w_blocks w) -> b_heap b = true -> ~ In (b_base b) (m_frees d i) ->
    In (b_base b) (map hbase rest ++ stores ss ++ others).
Proof.
  intros (_ & (own & HP & Hown) & _) (others & Hl & H). exists others. split; [exact Hl|]. intros b Hb Hh Hf.
  specialize (H b Hb Hh). rewrite in_app_iff in *. destruct H as [H|H]; [left|right; exact H].
  apply in_map_iff in H. destruct H as (e & Ee & He). apply (Permutation_in _ HP), in_app_iff in He. destruct He as [He|He].
  - exfalso. apply Hf. rewrite <- Ee. apply Hown, He.
  - rewrite <- Ee. apply in_map, He.
Qed.
Lemma cover_less w w' bx ss bx' ss' n m (lost : list N) : cover w bx ss n -> (length lost + n <= m)%nat ->
  (forall b, In b (w_blocks w') -> b_heap b = true -> In b (w_blocks w)) ->
  (forall b, In b (w_blocks w') -> b_heap b = true -> In (b_base b) (map hbase bx ++ stores ss) ->
     In (b_base b) (lost ++ map hbase bx' ++ stores ss')) -> cover w' bx' ss' m.
Proof.
  intros (others & Hl & H) Hm Hb Hx. exists (lost ++ others). split; [rewrite app_length; lia|]. intros b Hin Hh.
  specialize (H b (Hb b Hin Hh) Hh). rewrite app_assoc, in_app_iff in H. destruct H as [H|H].
  - specialize (Hx b Hin Hh H). rewrite !in_app_iff in *. tauto.
  - rewrite !in_app_iff. tauto.
Qed.
Lemma in_less {A} (f : A -> N) xs e ys x : In x (map f (xs ++ e :: ys)) -> x = f e \/ In x (map f (xs ++ ys)).
Proof. rewrite !map_app, !in_app_iff. cbn [map In]. intuition. Qed.
Lemma in_stores (xs : list (bool * sq * list V)) c s vs ys x :
  In x (stores (xs ++ (c, s, vs) :: ys)) -> In x (ustore_base s) \/ In x (stores (xs ++ ys)).
Proof. intros H. apply (Permutation_in _ (stores_mid xs c s vs ys)), in_app_iff in H. exact H. Qed.

Lemma push_cover w bx rest xs chk s vs ys i w' s' vs' n : hands_over d w bx rest (xs ++ (chk, s, vs) :: ys) i ->
  cover w bx (xs ++ (chk, s, vs) :: ys) n ->
  (forall b, In b (w_blocks w') -> (In b (w_blocks w) /\ ~ In (b_base b) (ustore_base s)) \/ In (b_base b) (ustore_base s')) ->
  (forall b, In b (w_blocks w') -> ~ In (b_base b) (m_frees d i)) -> cover w' rest (xs ++ (chk, s', vs') :: ys) n.
Proof.
  intros Hh IC Hnew Hgone. destruct (cover_rest _ _ _ _ _ _ Hh IC) as (others & Hl & HC). exists others. split; [exact Hl|].
  intros b Hb Hheap. assert (HS : forall x, In x (ustore_base s') \/ In x (stores (xs ++ ys)) -> In x (stores (xs ++ (chk, s', vs') :: ys))).
  { intros x Hx. eapply Permutation_in; [symmetry; apply stores_mid|]. apply in_app_iff, Hx. }
  rewrite !in_app_iff. destruct (Hnew b Hb) as [[H1 H2]|H1]; [|auto].
  specialize (HC b H1 Hheap (Hgone b Hb)). rewrite !in_app_iff in HC. destruct HC as [HC|[HC|HC]]; auto.
  apply in_stores in HC. right; left. apply HS. tauto.
Qed.

Lemma uhist_inv w bx ss n : contract u d -> no_zst u d -> uhist u d w bx ss n -> uinv w bx ss /\ cover w bx ss n.
Proof.
  intros K Z. pose proof Z as [_ Z2]. induction 1 as [w Hbl|w bx rest ss n i p w' v H [IH IC] Hh E Hm|w bx rest ss n i w' H [IH IC] Hh E
    |w xs p v ys ss n w' H [IH IC] E
    |w bx rest ss n i p w' v H [IH IC] Hh E Hm|w bx rest ss n i w' H [IH IC] Hh E|w xs p v ys ss n w' H [IH IC] E
    |w xs hb p v ys ss n H [IH IC]
    |w bx ss n chk H [IH IC]|w bx rest xs chk s vs ys n i w' s' v H [IH IC] Hh Hpu E Hm|w bx rest xs chk s vs ys n i w' s' H [IH IC] Hh Hpu E
    |w bx xs s vs ys n fs w' s' H [IH IC] E|w bx xs chk s vs ys n w' s' H [IH IC] E|w bx xs chk s vs ys n H [IH IC]].
  - split; [split; [exact Hbl|]; repeat split; constructor|].
    exists (map b_base (filter b_heap (w_blocks w))). split; [rewrite map_length; lia|]. intros b Hb Hh.
    cbn. apply in_map, filter_In. auto.
  - split; [eapply box_step; eauto|]. destruct (cover_rest _ _ _ _ _ _ Hh IC) as (others & Hl & HC).
    pose proof IH as (Hbl & _). pose proof Hh as (Hi & _).
    destruct (uvbox_new_cases u d w i K Z Hbl Hi) as [[(_ & wx & E' & _)|(l & _ & _ & E')]|(l & q & w2 & Ec & Hv & U & Hb' & HH)]; try congruence.
    rewrite Hm in HH. destruct HH as (E' & _). assert (q = p /\ w2 = w') as [-> ->] by (split; congruence).
    exists others. split; [exact Hl|]. intros b Hb Hheap. rewrite Hb' in Hb. destruct Hb as [<-|Hb]; [left; reflexivity|].
    apply in_without in Hb. right. apply HC; tauto.
  - split; [eapply box_panic_step; eauto|]. destruct (cover_rest _ _ _ _ _ _ Hh IC) as (others & Hl & HC).
    pose proof IH as (Hbl & _). pose proof Hh as (Hi & _).
    destruct (uvbox_new_cases u d w i K Z Hbl Hi) as [[(_ & wx & E' & U)|(l & _ & _ & E')]|(l & q & w2 & Ec & Hv & U & Hb' & HH)]; [|congruence|].
    + assert (wx = w') as -> by congruence. exists others. split; [destruct (m_makes d i); lia|]. intros b Hb Hheap.
      destruct U as (_ & U & _). rewrite U in Hb. apply in_without in Hb. apply HC; tauto.
    + destruct (m_makes d i); [destruct HH as (HH & _); congruence|]. assert (w2 = w') as -> by congruence.
      exists (q :: others). split; [cbn; lia|]. intros b Hb Hheap. rewrite Hb' in Hb. destruct Hb as [<-|Hb].
      * cbn [b_base]. rewrite !in_app_iff. right; right. left. reflexivity.
      * apply in_without in Hb. specialize (HC b (proj1 Hb) Hheap (proj2 Hb)). rewrite !in_app_iff in *. cbn [In]. tauto.
  - destruct (less_box _ _ _ _ _ IH) as (Hinv & [Ho Hi] & Hne). cbn [hbase fst snd] in *. pose proof IH as (Hbl & _).
    destruct (uvbox_drop_ok u d w p v K Ho Hi) as (w2 & E' & U). assert (w2 = w') as -> by congruence.
    pose proof (effect_untouched0 _ _ _ _ Hbl U) as Hu. split.
    + eapply frame_step; [exact K|exact Hinv|eapply effect_wf; eauto|exact Hu|]. intros x Hx [X|[]]. exact (Hne x Hx (eq_sym X)).
    + destruct U as (_ & U & _). eapply (cover_less w w' _ _ _ _ n n []); [exact IC|cbn; lia| |].
      * intros b Hb _. rewrite U in Hb. apply in_without in Hb. tauto.
      * intros b Hb _ Hx. rewrite U in Hb. apply in_without in Hb. cbn [app]. rewrite in_app_iff in *. destruct Hx as [Hx|Hx]; [left|auto].
        apply in_less in Hx. destruct Hx as [Hx|Hx]; [|exact Hx]. exfalso. apply (proj2 Hb). left. symmetry. exact Hx.
  - split; [eapply owned_step; eauto|]. destruct (cover_rest _ _ _ _ _ _ Hh IC) as (others & Hl & HC).
    pose proof IH as (Hbl & _). pose proof Hh as (Hi & _). pose proof (uowned_new_ok w i K Z Hbl Hi) as HH. rewrite E in HH.
    destruct HH as (v' & _ & _ & Hb' & _). exists others. split; [exact Hl|]. intros b Hb Hheap. rewrite Hb' in Hb.
    destruct Hb as [<-|Hb]; [discriminate|]. apply in_without in Hb. right. apply HC; tauto.
  - destruct (cover_rest _ _ _ _ _ _ Hh IC) as (others & Hl & HC). pose proof (rest_inv _ _ _ _ _ Hh IH) as Hr.
    pose proof IH as (Hbl & _). pose proof Hh as (Hi & _ & Hfr). pose proof (uowned_new_ok w i K Z Hbl Hi) as HH. rewrite E in HH.
    destruct HH as (Hbl' & Hu & HH). split; [eapply frame_step; eauto|].
    + intros x Hx Hf. exact (Hfr x Hf Hx).
    + exists others. split; [exact Hl|]. intros b Hb Hheap. destruct HH as [[HH _]|(_ & _ & q & k & HH)]; rewrite HH in Hb.
      * apply in_without in Hb. apply HC; tauto.
      * destruct Hb as [<-|Hb]; [discriminate|]. apply in_without in Hb. apply HC; tauto.
  - destruct (less_box _ _ _ _ _ IH) as (Hinv & [Ho Hi] & Hne). cbn [hbase fst snd] in *. pose proof IH as (Hbl & _).
    destruct (uowned_drop_ok u d w p v K Ho) as (w2 & E' & U). assert (w2 = w') as -> by congruence.
    pose proof (effect_untouched _ _ _ _ _ _ _ Hbl U Hi (N.le_refl _) (N.le_refl _)) as Hu. cbn [b_base] in Hu. split.
    + eapply frame_step; [exact K|exact Hinv|eapply effect_wf; eauto|exact Hu|]. intros x Hx [X|[]]. exact (Hne x Hx (eq_sym X)).
    + destruct U as (_ & U & _). rewrite without_nil in U. eapply (cover_less w w' _ _ _ _ n n []); [exact IC|cbn; lia| |].
      * intros b Hb _. now rewrite <- U.
      * intros b Hb Hheap Hx. rewrite U in Hb. cbn [app]. rewrite in_app_iff in *. destruct Hx as [Hx|Hx]; [left|auto].
        apply in_less in Hx. destruct Hx as [Hx|Hx]; [|exact Hx]. exfalso. cbn [hbase fst snd] in Hx.
        assert (b = mkB p (sz v) al false) as -> by (eapply same_base; eauto). discriminate.
  - destruct (less_box _ _ _ _ _ IH) as (Hinv & [Ho Hi] & Hne). cbn [hbase fst snd] in *. pose proof IH as (Hbl & _).
    split; [exact Hinv|]. eapply (cover_less w w _ _ _ _ n _ (if hb then [p] else [])); [exact IC|destruct hb; cbn; lia|auto|].
    intros b Hb Hheap Hx. rewrite in_app_iff in Hx. rewrite !in_app_iff. destruct Hx as [Hx|Hx]; [|auto].
    apply in_less in Hx. destruct Hx as [Hx|Hx]; [|auto]. cbn [hbase fst snd] in Hx.
    assert (b = mkB p (sz v) al hb) as -> by (eapply same_base; eauto). cbn in Hheap. subst hb. left. left. reflexivity.
  - split.
    + destruct IH as (Hbl & Hb & Hs & Hn). split; [exact Hbl|]. split; [exact Hb|]. split; [|exact Hn]. constructor; [|exact Hs].
      split; cbn [fst snd useq_new].
      * repeat split; try reflexivity. left. split; [|reflexivity]. split; [reflexivity|]. cbn.
        destruct (k_halign u d K) as [H1 H2]. pose proof (pow2_pos _ H1). pose proof (pow2_le _ (k_align u d K)) as Hle. change (2^29) with 536870912 in Hle. rewrite W_eq. lia.
      * intros _ Hc. cbn in Hc. lia.
    + exact IC.
  - destruct (less_seq _ _ _ _ _ _ _ IH) as (_ & [Hat Hmk] & _). pose proof IH as (Hbl & _). cbn [fst snd] in *.
    destruct (upush_ok u d w chk s i vs K Z Hbl Hat Hpu) as (w2 & s2 & A1 & A2 & A3 & A5 & A6 & A4).
    destruct A4 as [(E' & v' & Em & B1 & B2 & _)|[(E' & _)|(E' & _)]]; [|congruence|congruence].
    assert (w2 = w' /\ s2 = s' /\ v' = v) as (-> & -> & ->) by (repeat split; congruence).
    split; [eapply push_step; eauto|eapply push_cover; eauto].
  - destruct (less_seq _ _ _ _ _ _ _ IH) as (_ & [Hat Hmk] & _). pose proof IH as (Hbl & _). cbn [fst snd] in *.
    destruct (upush_ok u d w chk s i vs K Z Hbl Hat Hpu) as (w2 & s2 & A1 & A2 & A3 & A5 & A6 & A4).
    destruct A4 as [(E' & _)|[(E' & _ & B1 & B2 & _)|(E' & Es & _ & B1 & B2 & _)]]; [congruence| |].
    + assert (w2 = w' /\ s2 = s') as (-> & ->) by (split; congruence). split; [eapply push_step; eauto|eapply push_cover; eauto].
    + assert (w2 = w' /\ s = s') as (-> & <-) by (split; congruence). subst s2. split; [eapply push_step; eauto|eapply push_cover; eauto].
  - destruct (less_seq _ _ _ _ _ _ _ IH) as (Hinv & [Hat Hmk] & Hne). pose proof IH as (Hbl & _). cbn [fst snd] in *.
    destruct (udrain_ok w false s vs fs K Hbl Hat) as (w2 & E' & HB & Hu & Hat' & _).
    assert (w2 = w' /\ mkS (s_ptr s) 0 0 (s_cap s) = s') as [-> <-] by (split; congruence).
    assert (Hbl' : wf_blocks (w_blocks w')) by (rewrite HB; exact Hbl). split.
    + destruct (frame_step w w' _ _ _ K Hinv Hbl' Hu Hne) as (_ & F1 & F2 & F3). destruct IH as (_ & _ & _ & Hn).
      split; [exact Hbl'|]. split; [exact F1|]. split.
      * apply Forall_app in F2. destruct F2 as [G1 G2]. apply Forall_app. split; [exact G1|]. constructor; [|exact G2]. split; [exact Hat'|discriminate].
      * rewrite stores_app, stores_cons in *. exact Hn.
    + eapply (cover_less w w' _ _ _ _ n n []); [exact IC|cbn; lia| |]; intros b Hb; rewrite HB in Hb; [auto|]. intros _ Hx.
      rewrite stores_app, stores_cons in *. exact Hx.
  - destruct (less_seq _ _ _ _ _ _ _ IH) as (Hinv & [Hat Hmk] & Hne). pose proof IH as (Hbl & _). cbn [fst snd] in *.
    destruct (useq_drop_ok u d w chk s vs K Hbl Hat) as (w2 & s2 & E' & U). assert (w2 = w') as -> by congruence.
    pose proof (effect_untouched0 _ _ _ _ Hbl U) as Hu. split; [eapply frame_step; eauto; eapply effect_wf; eauto|].
    destruct U as (_ & U & _). eapply (cover_less w w' _ _ _ _ n n []); [exact IC|cbn; lia| |].
    + intros b Hb _. rewrite U in Hb. apply in_without in Hb. tauto.
    + intros b Hb _ Hx. rewrite U in Hb. apply in_without in Hb. cbn [app]. rewrite in_app_iff in *. destruct Hx as [Hx|Hx]; [auto|right].
      apply in_stores in Hx. tauto.
  - destruct (less_seq _ _ _ _ _ _ _ IH) as (Hinv & _ & _). split; [exact Hinv|].
    assert (Hlen : (length (ustore_base s) <= 1)%nat) by (unfold ustore_base; destruct (s_cap s =? 0); cbn; lia).
    eapply (cover_less w w _ _ _ _ n (Datatypes.S n) (ustore_base s)); [exact IC|lia|auto|].
    intros b Hb _ Hx. rewrite !in_app_iff in *. destruct Hx as [Hx|Hx]; [auto|]. apply in_stores in Hx. tauto.
Qed.
End Hist.
