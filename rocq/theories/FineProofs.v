(** FineProofs.v - proofs about threads interleaved at every access (C66). *)
From Verif Require Export FineCode ThreadProofs.

Lemma perform_gsim R E (P : gprims R E) p : gsim R E (perform p).
Proof. destruct p; cbn [perform]; apply P. Qed.
Definition ended {A} (x : res world A) (e : option A) (w : world) : Prop := match e with Some r => x = Ok r w | None => x = Panic w end.
Lemma perform_tick p w e w' : ended (perform p w) e w' -> (w_tick w <= w_tick w')%nat.
Proof.
  intros H. destruct (w_tick w) as [|k] eqn:Ek; [lia|].
  pose proof (proj1 (perform_gsim _ _ (Ra_prims (w_alloc w) (w_alloc w) k (fun _ _ => eq_refl)) p) w) as X. unfold Ea in X. rewrite Ek in X. specialize (X (Nat.lt_succ_diag_r k)).
  destruct e; cbn [ended] in H; rewrite H in X; lia.
Qed.
Lemma perform_alloc p w e w' al : ended (perform p w) e w' -> (forall k, (k < w_tick w')%nat -> al k = w_alloc w k) ->
  ended (perform p (set_alloc w al)) e (set_alloc w' al) /\ w_alloc w' = w_alloc w.
Proof.
  intros H Hal. pose proof (proj2 (perform_gsim _ _ (Ra_prims al (w_alloc w) (w_tick w') Hal) p) (set_alloc w al) w (conj eq_refl eq_refl)) as X.
  destruct e; cbn [ended] in *; rewrite H in X; (destruct X as [X|(x & -> & -> & E)]; [unfold Ea in X; lia|auto]).
Qed.
(** Part of the code has been executed. *)
Inductive csteps {X A} (c : code X A) (w : world) : code X A -> world -> Prop :=
| CS_start : csteps c w c w
| CS_step : forall p f w1 e w2, csteps c w (CDo p f) w1 -> ended (perform p w1) e w2 -> csteps c w (f e) w2.
Lemma csteps_run {X A} (c : code X A) w c' w' : csteps c w c' w' -> run c w = run c' w'.
Proof.
  induction 1 as [|p f w1 e w2 H IH He]; [reflexivity|]. rewrite IH. cbn [run]. destruct e; cbn [ended] in He; rewrite He; reflexivity.
Qed.
Lemma csteps_tick {X A} (c : code X A) w c' w' : csteps c w c' w' -> (w_tick w <= w_tick w')%nat /\ w_alloc w' = w_alloc w.
Proof.
  induction 1 as [|p f w1 e w2 H [IH1 IH2] He]; [auto|]. pose proof (perform_tick _ _ _ _ He).
  destruct (perform_alloc _ _ _ _ (w_alloc w1) He (fun _ _ => eq_refl)) as [_ E]. split; [lia|congruence].
Qed.
Lemma csteps_alloc {X A} (c : code X A) w c' w' al : csteps c w c' w' -> (forall k, (k < w_tick w')%nat -> al k = w_alloc w k) ->
  csteps c (set_alloc w al) c' (set_alloc w' al).
Proof.
  induction 1 as [|p f w1 e w2 H IH He]; intros Hal; [constructor|]. pose proof (perform_tick _ _ _ _ He). destruct (csteps_tick _ _ _ _ H) as [_ Ea].
  eapply CS_step; [apply IH; intros k Hk; apply Hal; lia|]. apply perform_alloc; [exact He|]. intros k Hk. rewrite Ea. now apply Hal.
Qed.

(** ** the invariant *)
Definition local (wv : world) (k : fworker) (acts : list action) : Prop :=
  let sl := wk_slots (fw_wk k) in let σ := wk_vals (fw_wk k) in let n := wk_lost (fw_wk k) in
  match fw_now k with
  | Idle => alone wv sl σ n acts
  | Busy o c es => exists ws c0, alone ws sl σ n acts /\ allowed σ o /\ (forall w, run c0 w = exec o (w, sl)) /\
      csteps c0 ws c wv /\ w_log wv = w_log ws ++ es
  end.
Lemma local_alloc wv k acts al : local wv k acts -> (forall j, (j < w_tick wv)%nat -> al j = w_alloc wv j) -> local (set_alloc wv al) k acts.
Proof.
  unfold local. destruct (fw_now k) as [|o c es]; intros H Hal; [now apply alone_alloc|]. destruct H as (ws & c0 & Ha & Hall & Hc & Hs & Hl).
  destruct (csteps_tick _ _ _ _ Hs) as [Ht Ea]. exists (set_alloc ws al), c0. split; [apply alone_alloc; [exact Ha|]|].
  - intros j Hj. rewrite <- Ea. apply Hal. lia.
  - split; [exact Hall|]. split; [exact Hc|]. split; [|exact Hl]. apply csteps_alloc; [exact Hs|]. intros j Hj. rewrite <- Ea. now apply Hal.
Qed.
Definition FI (w : world) (ts : list fworker) (tr : list (nat * action)) (wvs : list world) : Prop :=
  wf_blocks (w_blocks w) /\ (forall e, In e tr -> (fst e < length ts)%nat) /\ length wvs = length ts /\
  (forall i wv k, nth_error wvs i = Some wv -> nth_error ts i = Some k ->
     local wv k (actions i tr) /\ wf_blocks (w_blocks wv) /\ forall b x, In b (w_blocks wv) -> covers b x -> w_mem wv x = w_mem w x) /\
  (forall b, In b (w_blocks w) <-> exists i wv, nth_error wvs i = Some wv /\ In b (w_blocks wv)) /\
  (forall i j wv wv' b, nth_error wvs i = Some wv -> nth_error wvs j = Some wv' -> In b (w_blocks wv) -> In b (w_blocks wv') -> i = j).
(** The world of one thread; what it does there is done in the real world. *)
Lemma fworld_of w ts tr wvs i k : FI w ts tr wvs -> nth_error ts i = Some k -> exists wv0 wv,
  nth_error wvs i = Some wv0 /\ w_blocks wv = w_blocks wv0 /\
  local wv k (actions i tr) /\ Rt (others w wv) (w_mem w) (w_log w) (w_log wv) w wv /\
  forall w' wv' k' tr', Rt (others w wv) (w_mem w) (w_log w) (w_log wv) w' wv' -> local wv' k' (actions i tr') ->
    (forall j, j <> i -> actions j tr' = actions j tr) -> (forall e, In e tr' -> In e tr \/ fst e = i) ->
    exists wvs', FI w' (replace_nth ts i k') tr' wvs'.
Proof.
  intros (Hw & Ht & Hl & Hall & Hin & Hdis) Hk. assert (Hi : (i < length ts)%nat) by (apply nth_error_Some; congruence).
  destruct (nth_error wvs i) as [wv|] eqn:Ev; [|apply nth_error_None in Ev; lia]. destruct (Hall i wv k Ev Hk) as (Ha & Hwv & Hm).
  exists wv, (set_alloc wv (later w wv)). split; [reflexivity|]. split; [reflexivity|]. change (others w (set_alloc wv (later w wv))) with (others w wv).
  assert (Hsub : forall c, In c (w_blocks wv) -> In c (w_blocks w)) by (intros c Hc; apply Hin; eauto).
  split; [apply local_alloc; [exact Ha|]; intros j Hj; unfold later; now rewrite (proj2 (Nat.ltb_lt _ _) Hj)|split].
  - split; [exact Hm|]. split; [exists []; now rewrite !app_nil_r|]. split; [|split; [exact Hw|split; [exact Hwv|]]].
    + intros j s al. cbn [set_alloc w_alloc w_tick]. unfold later. rewrite (proj2 (Nat.ltb_ge _ _)) by lia. now replace (j + w_tick wv - w_tick wv)%nat with j by lia.
    + cbn [set_alloc w_blocks]. split; [|split; [intros b Hb; now apply (in_others w wv b Hw Hsub) in Hb|auto]]. intros b. rewrite (in_others w wv b Hw Hsub). split.
      * intros Hb. destruct (proj1 (Hin b) Hb) as (j & wv' & Hj & Hb'). destruct (Nat.eq_dec j i) as [->|Hne]; [left; congruence|].
        right. split; [exact Hb|]. intros H. apply Hne. eapply Hdis; eauto.
      * intros [H|H]; [auto|tauto].
  - intros w' wv' k' tr' (R1 & _ & R3 & R4 & R5 & R6 & R7 & R8) Hloc Hoacts Htr.
    assert (Hoth : forall b, In b (others w wv) <-> exists j wj, j <> i /\ nth_error wvs j = Some wj /\ In b (w_blocks wj)).
    { intros b. rewrite (in_others w wv b Hw Hsub). split.
      - intros [Hb Hn]. destruct (proj1 (Hin b) Hb) as (j & wj & Hj & Hb'). exists j, wj. split; [intros ->; congruence|auto].
      - intros (j & wj & Hne & Hj & Hb'). split; [apply Hin; eauto|]. intros Hc. apply Hne. eapply Hdis; eauto. }
    assert (Hup : forall j wj, nth_error (replace_nth wvs i wv') j = Some wj -> (j = i /\ wj = wv') \/ (j <> i /\ nth_error wvs j = Some wj)).
    { intros j wj E. rewrite <- update_replace in E. now apply AliasProofs.nth_update_inv in E. }
    exists (replace_nth wvs i wv'). split; [exact R4|]. split.
    { intros e He. rewrite replace_nth_len. destruct (Htr e He) as [H|H]; [auto|lia]. }
    split; [now rewrite !replace_nth_len|]. split; [|split].
    + intros j wj kj Hj Hkj. rewrite nth_replace_nth in Hkj. destruct (Hup j wj Hj) as [[-> ->]|[Hne Hj']].
      * destruct (Nat.eq_dec i i); [|congruence]. rewrite Hk in Hkj. injection Hkj as <-. auto.
      * destruct (Nat.eq_dec i j); [congruence|]. destruct (Hall j wj kj Hj' Hkj) as (A & B & C). split; [now rewrite Hoacts by exact Hne|]. split; [exact B|].
        intros b x Hb Hx. rewrite (C b x Hb Hx). symmetry. apply (R8 b x); [|exact Hx]. apply Hoth. eauto.
    + intros b. rewrite R6, Hoth. split.
      * intros [Hb|(j & wj & Hne & Hj & Hb)]; [exists i, wv'|exists j, wj]; (split; [|exact Hb]); rewrite nth_replace_nth.
        { destruct (Nat.eq_dec i i); [|congruence]. now rewrite Ev. }
        { destruct (Nat.eq_dec i j); [congruence|exact Hj]. }
      * intros (j & wj & Hj & Hb). destruct (Hup j wj Hj) as [[-> ->]|[Hne Hj']]; [auto|]. right. eauto.
    + intros j1 j2 w1 w2 b E1 E2 H1 H2. destruct (Hup _ _ E1) as [[-> ->]|[Hn1 E1']]; destruct (Hup _ _ E2) as [[-> ->]|[Hn2 E2']]; [reflexivity| | |eapply Hdis; eauto].
      * exfalso. apply (R7 b); [|exact H1]. apply Hoth. eauto.
      * exfalso. apply (R7 b); [|exact H2]. apply Hoth. eauto.
Qed.
(** What remains of an operation behaves as the operation does. *)
Lemma local_run wv sl σ n o c es acts : local wv (mkFw (mkWk sl σ n) (Busy o c es)) acts -> exists ws,
  alone ws sl σ n acts /\ allowed σ o /\ run c wv = exec o (ws, sl) /\ w_log wv = w_log ws ++ es /\ step_res σ o ws n (run c wv).
Proof.
  intros (ws & c0 & Ha & Hal & Hc & Hs & Hl). cbn [fw_wk wk_slots wk_vals wk_lost] in *. exists ws. split; [exact Ha|]. split; [exact Hal|].
  rewrite <- (csteps_run _ _ _ _ Hs), Hc. split; [reflexivity|]. split; [exact Hl|]. apply exec_ok; [|exact Hal]. eapply reach_inv, alone_reach, Ha.
Qed.
(** One access of a thread, in its world and in the real one. *)
Lemma virtual_access F m0 l0 lv0 w wv sl σ n o p f es acts : Rt F m0 l0 lv0 w wv -> local wv (mkFw (mkWk sl σ n) (Busy o (CDo p f) es)) acts ->
  match perform p w with
  | Ok r w' => exists wv', perform p wv = Ok r wv' /\ Rt F m0 l0 lv0 w' wv'
  | Panic w' => exists wv', perform p wv = Panic wv' /\ Rt F m0 l0 lv0 w' wv'
  | UB u => u = UNull /\ exists t q, o = ONewBox t q
  end.
Proof.
  intros HR Hloc. destruct (local_run _ _ _ _ _ _ _ _ Hloc) as (ws & _ & _ & _ & _ & Y). cbn [run] in Y.
  pose proof (proj2 (perform_gsim _ _ (Rt_prims F m0 l0 lv0) p) w wv HR) as X.
  destruct (perform p wv) as [r wv'|wv'|u]; cbn [step_res] in *.
  - destruct X as [[]|(w' & -> & X)]. eauto.
  - destruct X as [[]|(w' & -> & X)]. eauto.
  - destruct Y as [-> (t & q & i & -> & _)]. destruct X as [X|[X|[X|(x & [])]]]; [discriminate|discriminate|rewrite X; eauto].
Qed.
Lemma actions_app_other i j e tr : j <> i -> actions j (tr ++ [(i, e)]) = actions j tr.
Proof. intros H. apply actions_other. auto. Qed.
Lemma fine_inv w ts tr : fine w ts tr -> exists wvs, FI w ts tr wvs.
Proof.
  induction 1 as [w Hb|w ts tr H IH|w ts tr i sl σ n o c H IH Hi Hal Hc|w ts tr i k o p f es w' e es' H IH Hi He Hl
                 |w ts tr i sl σ n o r sl' es σ' d H IH Hi Ha|w ts tr i sl σ n o sl' es σ' d H IH Hi Ha].
  - exists []. split; [rewrite Hb; split; [intros b []|constructor]|]. split; [intros e []|]. split; [reflexivity|]. split; [intros [|i] wv k Hw; discriminate|].
    split; [|intros [|i] j wv wv' b Hw; discriminate]. intros b. rewrite Hb. split; [intros []|]. intros ([|i] & wv & Hw & _); discriminate.
  - destruct IH as (wvs & Hw & Ht & Hlen & Hall & Hin & Hdis). exists (wvs ++ [set_blocks w []]).
    split; [exact Hw|]. split; [intros e He; rewrite app_length; cbn; specialize (Ht e He); lia|]. split; [rewrite !app_length, Hlen; reflexivity|].
    assert (Hnew : forall i wv, nth_error (wvs ++ [set_blocks w []]) i = Some wv -> nth_error wvs i = Some wv \/ (i = length wvs /\ wv = set_blocks w [])).
    { intros i wv E. destruct (Nat.lt_ge_cases i (length wvs)) as [L|L]; [left; now rewrite nth_error_app1 in E by exact L|right].
      rewrite nth_error_app2 in E by exact L. destruct (i - length wvs)%nat as [|[|m]] eqn:Ed; cbn in E; [injection E as <-; split; [lia|reflexivity]|discriminate|discriminate]. }
    assert (Hold : forall i wv, nth_error wvs i = Some wv -> nth_error (wvs ++ [set_blocks w []]) i = Some wv).
    { intros i wv E. rewrite nth_error_app1; [exact E|]. apply nth_error_Some. congruence. }
    split; [|split].
    + intros i wv k Hw' Hk. destruct (Hnew i wv Hw') as [E|[-> ->]].
      * apply (Hall i wv k E). rewrite nth_error_app1 in Hk; [exact Hk|]. rewrite <- Hlen. apply nth_error_Some. congruence.
      * rewrite nth_error_app2, Hlen, Nat.sub_diag in Hk by lia. injection Hk as <-. unfold local. cbn [fw_now fw_wk wk_slots wk_vals wk_lost].
        split; [|split; [split; [intros b []|constructor]|intros b x []]].
        replace (actions (length wvs) tr) with (@nil action); [constructor; reflexivity|]. unfold actions. rewrite Hlen. clear -Ht.
        induction tr as [|e tr IH]; [reflexivity|]. cbn [filter]. pose proof (Ht e (or_introl eq_refl)). rewrite (proj2 (Nat.eqb_neq (fst e) (length ts))) by lia. apply IH. intros e' He'. apply Ht. now right.
    + intros b. rewrite Hin. split; intros (i & wv & E & Hb); [eauto|]. destruct (Hnew i wv E) as [E'|[-> ->]]; [eauto|destruct Hb].
    + intros i j wv wv' b Ei Ej Hb Hb'. destruct (Hnew i wv Ei) as [Ei'|[-> ->]]; [|destruct Hb]. destruct (Hnew j wv' Ej) as [Ej'|[-> ->]]; [|destruct Hb']. eapply Hdis; eauto.
  - destruct IH as (wvs & HF). destruct (fworld_of w ts tr wvs i _ HF Hi) as (wv0 & wv & _ & _ & Hloc & HR & Hnext).
    apply (Hnext w wv); auto. exists wv, c. cbn [fw_wk wk_slots wk_vals wk_lost] in *. unfold local in Hloc. cbn [fw_now fw_wk wk_slots wk_vals wk_lost] in Hloc.
    split; [exact Hloc|]. split; [exact Hal|]. split; [exact Hc|]. split; [constructor|]. now rewrite app_nil_r.
  - destruct IH as (wvs & HF). destruct (fworld_of w ts tr wvs i _ HF Hi) as (wv0 & wv & _ & _ & Hloc & HR & Hnext). destruct k as [sl σ n].
    pose proof (virtual_access _ _ _ _ w wv sl σ n o p f es _ HR Hloc) as X.
    assert (X' : exists wv', ended (perform p wv) e wv' /\ Rt (others w wv) (w_mem w) (w_log w) (w_log wv) w' wv').
    { destruct e; rewrite He in X; exact X. }
    clear X. destruct X' as (wv' & He' & HR'). apply (Hnext w' wv'); auto. pose proof HR' as (_ & (es2 & L1 & L2) & _). rewrite Hl in L1. apply app_inv_head in L1. subst es2.
    destruct Hloc as (ws & c0 & Ha & Hal & Hc & Hs & Hlg). cbn [fw_wk wk_slots wk_vals wk_lost] in *. exists ws, c0. cbn [fw_wk wk_slots wk_vals wk_lost].
    split; [exact Ha|]. split; [exact Hal|]. split; [exact Hc|]. split; [eapply CS_step; eauto|]. now rewrite L2, Hlg, app_assoc.
  - destruct IH as (wvs & HF). destruct (fworld_of w ts tr wvs i _ HF Hi) as (wv0 & wv & _ & _ & Hloc & HR & Hnext).
    apply (Hnext w wv); auto using actions_app_other; [|intros e He; apply in_app_or in He; destruct He as [He|[<-|[]]]; auto].
    destruct (local_run _ _ _ _ _ _ _ _ Hloc) as (ws & Hone & Hal & Hrun & Hlg & _). unfold local. cbn [fw_now fw_wk wk_slots wk_vals wk_lost]. rewrite actions_same.
    eapply A1_step; [exact Hone|exact Hal| |exact Ha|exact Hlg]. cbn [ends]. now rewrite <- Hrun.
  - destruct IH as (wvs & HF). destruct (fworld_of w ts tr wvs i _ HF Hi) as (wv0 & wv & _ & _ & Hloc & HR & Hnext).
    apply (Hnext w wv); auto using actions_app_other; [|intros e He; apply in_app_or in He; destruct He as [He|[<-|[]]]; auto].
    destruct (local_run _ _ _ _ _ _ _ _ Hloc) as (ws & Hone & Hal & Hrun & Hlg & _). unfold local. cbn [fw_now fw_wk wk_slots wk_vals wk_lost]. rewrite actions_same.
    eapply A1_step; [exact Hone|exact Hal| |exact Ha|exact Hlg]. cbn [ends]. now rewrite <- Hrun.
Qed.
