(** PropsThreads.v - C66: threads that own separate values. *)
From Verif Require Import ThreadProofs PropsProgram.

(** The threads' values, in the real world. *)
Lemma Rt_real w wv sl σ n F m0 l0 lv0 : Rt F m0 l0 lv0 w wv -> reach wv sl σ n -> exists n', Inv w sl σ n'.
Proof.
  intros HR Hre. pose proof (reach_inv _ _ _ _ Hre) as HI. pose proof HR as (R1 & _ & _ & R4 & _ & R6 & _). exists (n + length (map b_base (w_blocks w)))%nat.
  apply (inv_step wv sl σ n w sl σ _ [] 0%nat (map b_base (w_blocks w)) HI); try (apply HI); [exact R4| | |lia|].
  - intros b Hin _. split; [apply R6; auto|]. intros x Hx. symmetry. exact (R1 b x Hin Hx).
  - intros h s v Ha. left. split; [exact Ha|]. intros x _ [].
  - intros b Hin _. left. apply in_map. exact Hin.
Qed.
Lemma threads_real w ts tr i sl σ n : threads w ts tr -> nth_error ts i = Some (mkWk sl σ n) -> exists n', Inv w sl σ n'.
Proof.
  intros HT Hi. destruct (world_of w ts tr i _ (threads_inv _ _ _ HT) Hi) as (wv & Ha & HR & _).
  exact (Rt_real _ _ _ _ _ _ _ _ _ HR (alone_reach _ _ _ _ _ Ha)).
Qed.

(** ** no operation of any thread is undefined behaviour *)
(** In every state that threads can reach, every operation that safe Rust allows one of them behaves as the
    functional account of its own values says, and leads to such a state again; the exception of C45
    (VBox::new when the allocator gives no memory) remains. *)
Theorem C66_threads_safe : forall w ts tr i sl σ n o,
  threads w ts tr -> nth_error ts i = Some (mkWk sl σ n) -> allowed σ o ->
  match exec o (w, sl) with
  | Ok r (w', sl') => exists σ' es, w_log w' = w_log w ++ es /\ astep σ o (Done r) σ' (drops_of es) /\
      threads w' (replace_nth ts i (mkWk sl' σ' (lost o (Done r) n))) (tr ++ [(i, (o, Done r, es))])
  | Panic (w', sl') => exists σ' es, w_log w' = w_log w ++ es /\ astep σ o Panicked σ' (drops_of es) /\
      threads w' (replace_nth ts i (mkWk sl' σ' (lost o Panicked n))) (tr ++ [(i, (o, Panicked, es))])
  | UB u => u = UNull /\ exists t p x, o = ONewBox t p /\ den σ t p x /\
      forall a, w_alloc w (w_tick w) (isize t x) (sp_align t) = Some a ->
        valid_answer (w_blocks w) a (isize t x) (sp_align t) = false
  end.
Proof.
  intros w ts tr i sl σ n o HT Hi Hal. destruct (threads_real _ _ _ _ _ _ _ HT Hi) as (n' & HI). pose proof (exec_ok w sl σ n' o HI Hal) as H.
  destruct (exec o (w, sl)) as [r [w' sl']|[w' sl']|u] eqn:E; cbn [step_res] in H.
  - destruct H as (σ' & es & A & L & _). exists σ', es. split; [exact L|]. split; [exact A|]. eapply T_step; eauto.
  - destruct H as (σ' & es & A & L & _). exists σ', es. split; [exact L|]. split; [exact A|]. eapply T_step; eauto.
  - exact H.
Qed.

(** ** each thread runs as if it were alone *)
(** Every thread has done exactly what a program with this thread only could have done: the same operations
    with the same outcomes and the same destructor calls, the same values at the same addresses (for some
    answers of the allocator). The memory of the process consists of the memories of these programs, which
    have no block in common. *)
Theorem C66_as_if_alone : forall w ts tr, threads w ts tr ->
  exists ws, length ws = length ts /\
    (forall i wi sl σ n, nth_error ws i = Some wi -> nth_error ts i = Some (mkWk sl σ n) ->
       alone wi sl σ n (actions i tr) /\
       forall b x, In b (w_blocks wi) -> b_base b <= x < b_base b + b_size b -> w_mem wi x = w_mem w x) /\
    (forall b, In b (w_blocks w) <-> exists i wi, nth_error ws i = Some wi /\ In b (w_blocks wi)) /\
    (forall i j wi wj b c x, nth_error ws i = Some wi -> nth_error ws j = Some wj -> i <> j -> In b (w_blocks wi) -> In c (w_blocks wj) ->
       b_base b <= x < b_base b + b_size b -> ~ (b_base c <= x < b_base c + b_size c)).
Proof.
  intros w ts tr HT. destruct (threads_inv _ _ _ HT) as (Hw & _ & ws & Hl & Hall & Hin & Hdis). exists ws. split; [exact Hl|]. split; [|split; [exact Hin|]].
  - intros i wi sl σ n Hwi Hi. exact (Hall i wi _ Hwi Hi).
  - intros i j wi wj b c x Hi Hj Hne Hb Hc Hx Hx'.
    assert (Hbc : b <> c) by (intros ->; apply Hne; eapply Hdis; eauto).
    pose proof (wf_apart (w_blocks w) b c Hw (proj2 (Hin b) (ex_intro _ i (ex_intro _ wi (conj Hi Hb)))) (proj2 (Hin c) (ex_intro _ j (ex_intro _ wj (conj Hj Hc)))) Hbc) as Ha.
    unfold blocks_apart in Ha. lia.
Qed.

(** ** a thread reads what it wrote *)
Lemma inv_reads w sl σ n : Inv w sl σ n ->
  (forall pl t v, at_place σ pl = Some (t, v) -> exec (ORead pl) (w, sl) = Ok (OutVal v) (w, sl)) /\
  (forall h t chk vs old, nth_error σ h = Some (ASeq t chk vs old) ->
     exec (OReadSeq h) (w, sl) = Ok (OutVals vs) (w, sl) /\ exec (OLen h) (w, sl) = Ok (OutNum (len vs)) (w, sl)).
Proof.
  intros HI. split.
  - intros pl t v Hp. destruct (resolve_ok w sl σ n pl t v HI Hp) as (a & s0 & v0 & E & Hwf & Ho & _).
    cbn [exec]. unfold call. step E. cbn [fst snd]. now rewrite (view_ok t w a v Hwf Ho).
  - intros h t chk vs old Hh. destruct (seq_slot w sl σ n h t chk vs old HI Hh) as (s & Hah & Hwf & Hz & Hat & Hbits).
    cbn [exec]. rewrite (proj1 Hah). unfold call. rewrite (seq_contents_ok w t chk s vs Hwf (proj1 HI) Hat). cbn [fst snd].
    split; [reflexivity|]. unfold seq_len. now rewrite (proj1 Hat).
Qed.
Theorem C66_reads_back : forall w ts tr i sl σ n,
  threads w ts tr -> nth_error ts i = Some (mkWk sl σ n) ->
  (forall pl t v, at_place σ pl = Some (t, v) -> exec (ORead pl) (w, sl) = Ok (OutVal v) (w, sl)) /\
  (forall h t chk vs old, nth_error σ h = Some (ASeq t chk vs old) ->
     exec (OReadSeq h) (w, sl) = Ok (OutVals vs) (w, sl) /\ exec (OLen h) (w, sl) = Ok (OutNum (len vs)) (w, sl)).
Proof. intros w ts tr i sl σ n HT Hi. destruct (threads_real _ _ _ _ _ _ _ HT Hi) as (n' & HI). exact (inv_reads w sl σ n' HI). Qed.
(** Whatever other threads do meanwhile, a thread's values stay as they are and where they are. *)
Theorem C66_undisturbed : forall w ts tr j sl σ n w' ts' pl t v a,
  threads w ts tr -> nth_error ts j = Some (mkWk sl σ n) -> meanwhile j w ts w' ts' ->
  at_place σ pl = Some (t, v) -> resolve sl pl w = Ok (t, a) w ->
  nth_error ts' j = Some (mkWk sl σ n) /\ resolve sl pl w' = Ok (t, a) w' /\ exec (ORead pl) (w', sl) = Ok (OutVal v) (w', sl).
Proof.
  intros w ts tr j sl σ n w' ts' pl t v a HT Hj HM Hp Hr.
  assert (H : (exists tr', threads w' ts' tr') /\ nth_error ts' j = Some (mkWk sl σ n)).
  { induction HM as [|w' ts' HM [[tr' H1] H2]|w' ts' i sl1 σ1 n1 o r w2 sl2 σ2 d HM [[tr' H1] H2] Hne Hi Hal He Ha].
    - eauto.
    - split; [exists tr'; now constructor|]. rewrite nth_error_app1; [exact H2|]. apply nth_error_Some. congruence.
    - split; [|rewrite nth_replace_nth; destruct (Nat.eq_dec i j); [congruence|exact H2]].
      pose proof (C66_threads_safe _ _ _ _ _ _ _ o H1 Hi Hal) as X.
      assert (exists es, w_log w2 = w_log w' ++ es) as (es & L).
      { destruct r; cbn [ends] in He; rewrite He in X; destruct X as (σ' & es & L & _); eauto. }
      exists (tr' ++ [(i, (o, r, es))]). eapply T_step; eauto. }
  destruct H as [[tr' HT'] Hj']. split; [exact Hj'|]. destruct (threads_real _ _ _ _ _ _ _ HT Hj) as (n1 & HI). destruct (threads_real _ _ _ _ _ _ _ HT' Hj') as (n2 & HI').
  destruct (resolve_addr w sl σ n1 pl t v HI Hp) as (a0 & E1 & E2). rewrite Hr in E2. injection E2 as <-.
  destruct (resolve_addr w' sl σ n2 pl t v HI' Hp) as (a1 & E3 & E4). rewrite E1 in E3. injection E3 as <-. split; [exact E4|].
  exact (proj1 (C66_reads_back _ _ _ _ _ _ _ HT' Hj') pl t v Hp).
Qed.

(** ** every allocation has one owner, in one thread *)
Lemma inv_no_leak w ts tr : MInv w ts tr ->
  wf_blocks (w_blocks w) /\
  (forall i k h s a, nth_error ts i = Some k -> nth_error (wk_slots k) h = Some s -> In a (slot_bases s) ->
     exists b, In b (w_blocks w) /\ b_base b = a /\ b_heap b = true) /\
  (forall i i' k k' h h' s s' a, nth_error ts i = Some k -> nth_error ts i' = Some k' ->
     nth_error (wk_slots k) h = Some s -> nth_error (wk_slots k') h' = Some s' -> In a (slot_bases s) -> In a (slot_bases s') -> i = i' /\ h = h') /\
  exists leaked, (length leaked <= list_sum (map wk_lost ts))%nat /\
    forall b, In b (w_blocks w) -> b_heap b = true ->
      In (b_base b) leaked \/ exists i k h s, nth_error ts i = Some k /\ nth_error (wk_slots k) h = Some s /\ In (b_base b) (slot_bases s).
Proof.
  intros (Hw & _ & ws & Hl & Hall & Hin & Hdis).
  assert (Hws : forall i k, nth_error ts i = Some k -> exists wi, nth_error ws i = Some wi).
  { intros i k Hi. destruct (nth_error ws i) as [wi|] eqn:E; [eauto|]. apply nth_error_None in E. assert (i < length ts)%nat by (apply nth_error_Some; congruence). lia. }
  assert (Hown : forall i k wi h s a, nth_error ts i = Some k -> nth_error ws i = Some wi -> nth_error (wk_slots k) h = Some s -> In a (slot_bases s) ->
     exists b, In b (w_blocks wi) /\ b_base b = a /\ b_heap b = true).
  { intros i k wi h s a Hi Hwi Hs Ha. destruct (Hall i wi k Hwi Hi) as [H1 _]. destruct (C45_no_leak _ _ _ _ (alone_reach _ _ _ _ _ H1)) as (_ & H & _). eauto. }
  split; [exact Hw|]. split; [|split].
  - intros i k h s a Hi Hs Ha. destruct (Hws i k Hi) as (wi & Hwi). destruct (Hown i k wi h s a Hi Hwi Hs Ha) as (b & Hb & E). exists b. split; [apply Hin; eauto|exact E].
  - intros i i' k k' h h' s s' a Hi Hi' Hs Hs' Ha Ha'. destruct (Hws i k Hi) as (wi & Hwi). destruct (Hws i' k' Hi') as (wi' & Hwi').
    destruct (Hown i k wi h s a Hi Hwi Hs Ha) as (b & Hb & E & _). destruct (Hown i' k' wi' h' s' a Hi' Hwi' Hs' Ha') as (c & Hc & E' & _).
    assert (b = c) by (eapply (wf_same_base (w_blocks w)); [exact Hw|apply Hin; eauto|apply Hin; eauto|congruence]). subst c.
    assert (i = i') by (eapply Hdis; eauto). subst i'. split; [reflexivity|]. rewrite Hi in Hi'. injection Hi' as <-.
    destruct (Hall i wi k Hwi Hi) as [H1 _]. destruct (C45_no_leak _ _ _ _ (alone_reach _ _ _ _ _ H1)) as (_ & _ & H & _). eauto.
  - assert (H : forall m, (m <= length ts)%nat -> exists leaked, (length leaked <= list_sum (map wk_lost (firstn m ts)))%nat /\
      forall i wi b, (i < m)%nat -> nth_error ws i = Some wi -> In b (w_blocks wi) -> b_heap b = true ->
        In (b_base b) leaked \/ exists i k h s, nth_error ts i = Some k /\ nth_error (wk_slots k) h = Some s /\ In (b_base b) (slot_bases s)).
    { induction m as [|m IH]; intros Hm; [exists []; split; [cbn; lia|intros; lia]|]. destruct (IH (Nat.lt_le_incl _ _ Hm)) as (L & HL & HLb).
      destruct (nth_error ts m) as [k|] eqn:Ek; [|apply nth_error_None in Ek; lia]. destruct (Hws m k Ek) as (wm & Hwm). destruct (Hall m wm k Hwm Ek) as [H1 _].
      destruct (C45_no_leak _ _ _ _ (alone_reach _ _ _ _ _ H1)) as (_ & _ & _ & L' & HL' & HLb'). exists (L ++ L'). split.
      - assert (E : firstn (S m) ts = firstn m ts ++ [k]).
        { clear -Ek. revert m Ek. induction ts as [|y ts IH]; intros [|m] E; cbn in *; try discriminate; [now injection E as ->|]. f_equal. now apply IH. }
        rewrite E, map_app, list_sum_app, app_length. cbn. lia.
      - intros i wi b Hi Hwi Hb Hh. destruct (Nat.eq_dec i m) as [->|Hne].
        + rewrite Hwm in Hwi. injection Hwi as <-. destruct (HLb' b Hb Hh) as [H|(h & s & Hs & Ha)]; [left; apply in_or_app; auto|]. right. exists m, k, h, s. auto.
        + destruct (HLb i wi b) as [H|H]; auto; [lia|]. left. apply in_or_app. auto. }
    destruct (H (length ts) (le_n _)) as (L & HL & HLb). rewrite firstn_all in HL. exists L. split; [exact HL|]. intros b Hb Hh. destruct (proj1 (Hin b) Hb) as (i & wi & Hwi & Hb').
    apply (HLb i wi b); auto. rewrite <- Hl. apply nth_error_Some. congruence.
Qed.
Theorem C66_no_leak : forall w ts tr, threads w ts tr ->
  wf_blocks (w_blocks w) /\
  (forall i k h s a, nth_error ts i = Some k -> nth_error (wk_slots k) h = Some s -> In a (slot_bases s) ->
     exists b, In b (w_blocks w) /\ b_base b = a /\ b_heap b = true) /\
  (forall i i' k k' h h' s s' a, nth_error ts i = Some k -> nth_error ts i' = Some k' ->
     nth_error (wk_slots k) h = Some s -> nth_error (wk_slots k') h' = Some s' -> In a (slot_bases s) -> In a (slot_bases s') -> i = i' /\ h = h') /\
  exists leaked, (length leaked <= list_sum (map wk_lost ts))%nat /\
    forall b, In b (w_blocks w) -> b_heap b = true ->
      In (b_base b) leaked \/ exists i k h s, nth_error ts i = Some k /\ nth_error (wk_slots k) h = Some s /\ In (b_base b) (slot_bases s).
Proof. intros w ts tr HT. apply (inv_no_leak w ts tr), threads_inv, HT. Qed.
Lemma inv_all_freed w ts tr : MInv w ts tr ->
  (forall i sl σ n, nth_error ts i = Some (mkWk sl σ n) -> n = 0%nat /\ forall h s, nth_error sl h = Some s -> slot_bases s = []) ->
  forall b, In b (w_blocks w) -> b_heap b = false.
Proof.
  intros HT Hd b Hb. destruct (b_heap b) eqn:Hh; [|reflexivity]. destruct (inv_no_leak w ts tr HT) as (_ & _ & _ & L & HL & H).
  assert (E : list_sum (map wk_lost ts) = 0%nat).
  { clear -Hd. induction ts as [|k ts IH]; [reflexivity|]. cbn [map]. change (wk_lost k + list_sum (map wk_lost ts) = 0)%nat. rewrite IH; [|intros i sl σ n Hi; exact (Hd (S i) sl σ n Hi)].
    destruct k as [sl σ n]. destruct (Hd 0%nat sl σ n eq_refl) as [-> _]. reflexivity. }
  destruct L; [|cbn in HL; lia]. destruct (H b Hb Hh) as [[]|(i & [sl σ n] & h & s & Hi & Hs & Hin)]. cbn [wk_slots] in Hs.
  destruct (Hd i sl σ n Hi) as [_ Hz]. rewrite (Hz h s Hs) in Hin. destruct Hin.
Qed.
(** When all threads have dropped everything, all memory has been given back. *)
Theorem C66_all_freed : forall w ts tr, threads w ts tr ->
  (forall i sl σ n, nth_error ts i = Some (mkWk sl σ n) -> n = 0%nat /\ forall h s, nth_error sl h = Some s -> slot_bases s = []) ->
  forall b, In b (w_blocks w) -> b_heap b = false.
Proof. intros w ts tr HT. apply (inv_all_freed w ts tr), threads_inv, HT. Qed.

(** ** a concrete program: two threads, interleaved; both have made the same box, the first has pushed a
    clone of a part of its box to a sequence, the second has dropped its box *)
Lemma threads_step w ts tr i sl σ n o r σ' d c ts' : threads w ts tr -> nth_error ts i = Some (mkWk sl σ n) -> allowed σ o ->
  c = step_cfg o (w, sl) -> out_of (exec o (w, sl)) = Some r -> astep σ o (Done r) σ' d ->
  ts' = replace_nth ts i (mkWk (snd c) σ' (lost o (Done r) n)) -> exists tr', threads (fst c) ts' tr'.
Proof.
  intros HT Hi Hal -> Ho Ha ->. pose proof (C66_threads_safe _ _ _ _ _ _ _ o HT Hi Hal) as X. unfold step_cfg.
  destruct (exec o (w, sl)) as [x [w' sl']|[w' sl']|u] eqn:E; try discriminate. injection Ho as ->. cbn [cfg_of fst snd].
  destruct X as (σ2 & es & L & A & T). exists (tr ++ [(i, (o, Done r, es))]). eapply T_step; [exact HT|exact Hi|exact Hal| |exact Ha|exact L]. exact E.
Qed.
Definition d1 := step_cfg op1 (w_start, []).
Definition d2 := step_cfg op1 (fst d1, []).
Definition d3 := step_cfg op2 (fst d2, snd d1).
Definition d4 := step_cfg op3 (fst d3, snd d3).
Definition d5 := step_cfg op6 (fst d4, snd d2).
Example C66_meets : exists tr,
  threads (fst d5) [mkWk (snd d4) σ3 0; mkWk (snd d5) [ADead] 0] tr.
Proof.
  assert (A1 : allowed [] op1).
  { apply L_new_box with i_ex; [apply t_ex_wf|apply p_ex_den| |vm_compute; reflexivity]. apply no_moves; [reflexivity|intros h []]. }
  assert (S1 : astep [] op1 (Done OutUnit) σ1 []).
  { apply (A_new_box [] t_ex p_ex i_ex v_ex); [apply p_ex_den|vm_compute; reflexivity|vm_compute; reflexivity]. }
  assert (T0 : threads w_start [mkWk [] [] 0; mkWk [] [] 0] []).
  { apply (T_spawn w_start [mkWk [] [] 0]). apply (T_spawn w_start []). constructor. reflexivity. }
  assert (E1 : out_of (exec op1 (w_start, [])) = Some OutUnit) by (vm_compute; reflexivity).
  assert (U1 : [mkWk (snd d1) σ1 0; mkWk [] [] 0] = replace_nth [mkWk [] [] 0; mkWk [] [] 0] 0 (mkWk (snd d1) σ1 (lost op1 (Done OutUnit) 0))) by (cbn [replace_nth lost op1]; reflexivity).
  assert (C1 : d1 = step_cfg op1 (w_start, [])) by reflexivity.
  destruct (threads_step w_start [mkWk [] [] 0; mkWk [] [] 0] [] 0%nat [] [] 0 op1 OutUnit σ1 [] d1 [mkWk (snd d1) σ1 0; mkWk [] [] 0] T0 eq_refl A1 C1 E1 S1 U1) as (tr1 & T1).
  assert (E2 : out_of (exec op1 ((fst d1), [])) = Some OutUnit) by (vm_compute; reflexivity).
  assert (U2 : [mkWk (snd d1) σ1 0; mkWk (snd d2) σ1 0] = replace_nth [mkWk (snd d1) σ1 0; mkWk [] [] 0] 1 (mkWk (snd d2) σ1 (lost op1 (Done OutUnit) 0))) by (cbn [replace_nth lost op1]; reflexivity).
  assert (C2 : d2 = step_cfg op1 (fst d1, [])) by reflexivity.
  destruct (threads_step (fst d1) [mkWk (snd d1) σ1 0; mkWk [] [] 0] tr1 1%nat [] [] 0 op1 OutUnit σ1 [] d2 [mkWk (snd d1) σ1 0; mkWk (snd d2) σ1 0] T1 eq_refl A1 C2 E2 S1 U2) as (tr2 & T2).
  assert (A2 : allowed σ1 op2) by (apply L_new_seq; [apply t_tup_wf|apply t_tup_nonzst]).
  assert (E3 : out_of (exec op2 ((fst d2), (snd d1))) = Some OutUnit) by (vm_compute; reflexivity).
  assert (U3 : [mkWk (snd d3) σ2 0; mkWk (snd d2) σ1 0] = replace_nth [mkWk (snd d1) σ1 0; mkWk (snd d2) σ1 0] 0 (mkWk (snd d3) σ2 (lost op2 (Done OutUnit) 0))) by (cbn [replace_nth lost op2]; reflexivity).
  assert (C3 : d3 = step_cfg op2 (fst d2, snd d1)) by reflexivity.
  destruct (threads_step (fst d2) [mkWk (snd d1) σ1 0; mkWk (snd d2) σ1 0] tr2 0%nat (snd d1) σ1 0 op2 OutUnit σ2 [] d3 [mkWk (snd d3) σ2 0; mkWk (snd d2) σ1 0] T2 eq_refl A2 C3 E3 (A_new_seq σ1 t_tup true) U3) as (tr3 & T3).
  assert (D3 : den σ2 t_tup p3 (clone_init t_tup v_tup)) by (apply D_clone; [reflexivity|]; cbn; conc).
  assert (A3 : allowed σ2 op3).
  { eapply L_push; [reflexivity|exact D3|]. apply no_moves; [reflexivity|]. intros h [<-|[]] [H|[]]. discriminate. }
  assert (S3 : astep σ2 op3 (Done OutUnit) σ3 []).
  { apply (A_push σ2 1 p3 t_tup true [] [] (clone_init t_tup v_tup) v_tup); [reflexivity|exact D3|vm_compute; reflexivity|vm_compute; reflexivity]. }
  assert (E4 : out_of (exec op3 ((fst d3), (snd d3))) = Some OutUnit) by (vm_compute; reflexivity).
  assert (U4 : [mkWk (snd d4) σ3 0; mkWk (snd d2) σ1 0] = replace_nth [mkWk (snd d3) σ2 0; mkWk (snd d2) σ1 0] 0 (mkWk (snd d4) σ3 (lost op3 (Done OutUnit) 0))) by (cbn [replace_nth lost op3]; reflexivity).
  assert (C4 : d4 = step_cfg op3 (fst d3, snd d3)) by reflexivity.
  destruct (threads_step (fst d3) [mkWk (snd d3) σ2 0; mkWk (snd d2) σ1 0] tr3 0%nat (snd d3) σ2 0 op3 OutUnit σ3 [] d4 [mkWk (snd d4) σ3 0; mkWk (snd d2) σ1 0] T3 eq_refl A3 C4 E4 S3 U4) as (tr4 & T4).
  assert (A5 : allowed σ1 op6) by (eapply L_drop; [reflexivity|discriminate]).
  assert (S5 : astep σ1 op6 (Done OutUnit) [ADead] [h1; h2; h3]) by (apply (A_drop σ1 0 (ABox t_ex v_ex)); [reflexivity|discriminate]).
  assert (E5 : out_of (exec op6 ((fst d4), (snd d2))) = Some OutUnit) by (vm_compute; reflexivity).
  assert (U5 : [mkWk (snd d4) σ3 0; mkWk (snd d5) [ADead] 0] = replace_nth [mkWk (snd d4) σ3 0; mkWk (snd d2) σ1 0] 1 (mkWk (snd d5) [ADead] (lost op6 (Done OutUnit) 0))) by (cbn [replace_nth lost op6]; reflexivity).
  assert (C5 : d5 = step_cfg op6 (fst d4, snd d2)) by reflexivity.
  destruct (threads_step (fst d4) [mkWk (snd d4) σ3 0; mkWk (snd d2) σ1 0] tr4 1%nat (snd d2) σ1 0 op6 OutUnit [ADead] [h1; h2; h3] d5 [mkWk (snd d4) σ3 0; mkWk (snd d5) [ADead] 0] T4 eq_refl A5 C5 E5 S5 U5) as (tr5 & T5).
  exists tr5. exact T5.
Qed.
(** The boxes were at different addresses; the second one is gone. *)
Example C66_meets_places : exists a b s, snd d4 = [SBox t_ex a; SSeq t_tup true s] /\ snd d2 = [SBox t_ex b] /\ a <> b /\
  snd d5 = [SDead] /\ map b_base (filter b_heap (w_blocks (fst d5))) = [s_ptr s; a].
Proof. do 3 eexists. split; [vm_compute; reflexivity|]. split; [vm_compute; reflexivity|]. split; [discriminate|]. split; vm_compute; reflexivity. Qed.
