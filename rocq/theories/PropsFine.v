(** PropsFine.v - C66, second part: threads interleaved at every single access to memory. *)
From Verif Require Import FineProofs PropsProgram PropsThreads.

(** ** every operation is a sequence of accesses *)
Theorem C66_decomposes : forall o sl, exists c, forall w, run c w = exec o (w, sl).
Proof. intros o sl. destruct (exec_coded o sl) as [c Hc]. exists c. exact Hc. Qed.

(** ** no access of any thread is undefined behaviour *)
(** Whatever the interleaving was so far: the next access of a thread goes well (or is the null pointer
    access of VBox::new, C45), the operation ends as the functional account of the thread's own values
    says, with the destructor calls that the account says, and the state reached is one of these again. *)
Theorem C66_fine_safe : forall w ts tr i sl σ n o c es,
  fine w ts tr -> nth_error ts i = Some (mkFw (mkWk sl σ n) (Busy o c es)) ->
  match c with
  | CDo p f =>
      match perform p w with
      | Ok r w' => exists es', w_log w' = w_log w ++ es' /\
          fine w' (replace_nth ts i (mkFw (mkWk sl σ n) (Busy o (f (Some r)) (es ++ es')))) tr
      | Panic w' => exists es', w_log w' = w_log w ++ es' /\
          fine w' (replace_nth ts i (mkFw (mkWk sl σ n) (Busy o (f None) (es ++ es')))) tr
      | UB u => u = UNull /\ exists t q, o = ONewBox t q
      end
  | CRet r sl' => exists σ', astep σ o (Done r) σ' (drops_of es) /\
      fine w (replace_nth ts i (mkFw (mkWk sl' σ' (lost o (Done r) n)) Idle)) (tr ++ [(i, (o, Done r, es))])
  | CPanic sl' => exists σ', astep σ o Panicked σ' (drops_of es) /\
      fine w (replace_nth ts i (mkFw (mkWk sl' σ' (lost o Panicked n)) Idle)) (tr ++ [(i, (o, Panicked, es))])
  | CUB u => u = UNull /\ exists t q, o = ONewBox t q
  end.
Proof.
  intros w ts tr i sl σ n o c es HT Hi. destruct (fine_inv _ _ _ HT) as (wvs & HF). destruct (fworld_of w ts tr wvs i _ HF Hi) as (wv0 & wv & _ & _ & Hloc & HR & _).
  destruct (local_run _ _ _ _ _ _ _ _ Hloc) as (ws & Hone & Hal & Hrun & Hlg & Y). destruct c as [r sl'|sl'|u|p f]; cbn [run step_res] in Y.
  - destruct Y as (σ' & evs & A & L & _). rewrite Hlg in L. apply app_inv_head in L. subst evs. exists σ'. split; [exact A|]. eapply F_return; eauto.
  - destruct Y as (σ' & evs & A & L & _). rewrite Hlg in L. apply app_inv_head in L. subst evs. exists σ'. split; [exact A|]. eapply F_panic; eauto.
  - destruct Y as [-> (t & q & x & -> & _)]. eauto.
  - pose proof (virtual_access _ _ _ _ w wv sl σ n o p f es _ HR Hloc) as X. destruct (perform p w) as [r w'|w'|u] eqn:E.
    + destruct X as (wv' & _ & HR'). pose proof HR' as (_ & (es' & L1 & _) & _). exists es'. split; [exact L1|]. apply (F_access w ts tr i _ o p f es w' (Some r) es'); auto.
    + destruct X as (wv' & _ & HR'). pose proof HR' as (_ & (es' & L1 & _) & _). exists es'. split; [exact L1|]. apply (F_access w ts tr i _ o p f es w' None es'); auto.
    + exact X.
Qed.

(** ** no data races *)
Lemma is_block_covers bl a size align x : is_block bl a size align = true -> within x a size -> exists b, In b bl /\ covers b x.
Proof.
  unfold is_block. intros E Hx. apply existsb_exists in E. destruct E as (c & Hc & E). exists c. split; [exact Hc|].
  unfold block_eqb in E. repeat (apply andb_prop in E as [E ?]). repeat match goal with X : (_ =? _) = true |- _ => apply N.eqb_eq in X end. unfold covers, within in *. lia.
Qed.
Lemma access_covers p wv x : (match perform p wv with UB _ => False | _ => True end) -> reads p x \/ writes p x -> exists b, In b (w_blocks wv) /\ covers b x.
Proof.
  assert (Hck : forall a n al (r : res world unit), check_ref a n al wv = r -> (match r with UB _ => False | _ => True end) -> r = Ok tt wv /\ inb wv a n = true).
  { intros a n al r <-. unfold check_ref. destruct (a =? 0); [intros []|]. destruct (negb (a mod al =? 0)); [intros []|]. destruct (inb wv a n); [auto|intros []]. }
  assert (Hck' : forall {A} a n al (k : unit -> M world A), match bind (check_ref a n al) k wv with UB _ => False | _ => True end -> inb wv a n = true /\ match k tt wv with UB _ => False | _ => True end).
  { intros A a n al k H. unfold bind in H. destruct (check_ref a n al wv) as [u w'|w'|u] eqn:E; [| |destruct H].
    - destruct (Hck _ _ _ _ E I) as [E' Hi]. injection E' as -> ->. auto.
    - destruct (Hck _ _ _ _ E I) as [E' Hi]. discriminate. }
  destruct p; cbn [perform reads writes]; intros H [Hx|Hx]; try contradiction.
  - destruct (Hck _ _ _ _ eq_refl H) as [_ Hi]. eapply inb_block; eauto.
  - destruct (Hck' _ _ _ _ _ H) as [Hi _]. eapply inb_block; eauto.
  - destruct (Hck' _ _ _ _ _ H) as [Hi _]. eapply inb_block; eauto.
  - destruct (Hck' _ _ _ _ _ H) as [Hi _]. eapply inb_block; eauto.
  - destruct (Hck' _ _ _ _ _ H) as [_ H']. destruct (Hck' _ _ _ _ _ H') as [Hi _]. eapply inb_block; eauto.
  - destruct (Hck' _ _ _ _ _ H) as [Hi _]. eapply inb_block; eauto.
  - destruct (Hck' _ _ _ _ _ H) as [_ H']. destruct (Hck' _ _ _ _ _ H') as [Hi _]. eapply inb_block; eauto.
  - destruct (Hck' _ _ _ _ _ H) as [Hi _]. eapply inb_block; eauto.
  - unfold dealloc in H. destruct (is_block _ _ _ _) eqn:E; [|destruct H]. eapply is_block_covers; eauto.
  - unfold realloc in H. destruct (ns =? 0); [destruct H|]. destruct (is_block _ _ _ _) eqn:E; [|destruct H]. eapply is_block_covers; eauto.
  - unfold realloc in H. destruct (ns =? 0); [destruct H|]. destruct (is_block _ _ _ _) eqn:E; [|destruct H]. eapply is_block_covers; eauto.
Qed.
(** When two threads are about to access memory, neither writes (or frees) a byte that the other reads, writes
    or frees. *)
Theorem C66_no_race : forall w ts tr i j k k' o o' p p' f f' es es' x,
  fine w ts tr -> i <> j ->
  nth_error ts i = Some (mkFw k (Busy o (CDo p f) es)) -> nth_error ts j = Some (mkFw k' (Busy o' (CDo p' f') es')) ->
  (* neither is the null pointer access of VBox::new *)
  (forall u, perform p w <> UB u) -> (forall u, perform p' w <> UB u) ->
  writes p x -> ~ (reads p' x \/ writes p' x).
Proof.
  intros w ts tr i j [sl σ n] [sl' σ' n'] o o' p p' f f' es es' x HT Hne Hi Hj Hok Hok' Hx Hx'.
  destruct (fine_inv _ _ _ HT) as (wvs & HF). pose proof HF as (Hw & _ & _ & _ & Hin & Hdis).
  destruct (fworld_of w ts tr wvs i _ HF Hi) as (wi & wv & Hwi & Eb & Hloc & HR & _). destruct (fworld_of w ts tr wvs j _ HF Hj) as (wj & wv' & Hwj & Eb' & Hloc' & HR' & _).
  pose proof (virtual_access _ _ _ _ w wv sl σ n o p f es _ HR Hloc) as X. pose proof (virtual_access _ _ _ _ w wv' sl' σ' n' o' p' f' es' _ HR' Hloc') as X'.
  assert (exists b, In b (w_blocks wi) /\ covers b x) as (b & Hb & Cb).
  { rewrite <- Eb. apply (access_covers p); [|auto]. destruct (perform p w) as [r w'|w'|u]; [| |destruct (Hok u eq_refl)]; destruct X as (v & -> & _); exact I. }
  assert (exists c, In c (w_blocks wj) /\ covers c x) as (c & Hc & Cc).
  { rewrite <- Eb'. apply (access_covers p'); [|auto]. destruct (perform p' w) as [r w'|w'|u]; [| |destruct (Hok' u eq_refl)]; destruct X' as (v & -> & _); exact I. }
  assert (Hbc : b <> c) by (intros ->; apply Hne; eapply Hdis; eauto).
  pose proof (wf_apart (w_blocks w) b c Hw (proj2 (Hin b) (ex_intro _ i (ex_intro _ wi (conj Hwi Hb)))) (proj2 (Hin c) (ex_intro _ j (ex_intro _ wj (conj Hwj Hc)))) Hbc) as Ha.
  unfold blocks_apart, covers in *. lia.
Qed.

(** ** each thread runs as if it were alone *)
(** The finished operations of a thread are those of a program with this thread only (same outcomes, same
    destructor calls). Between operations, its part of the memory is the memory of that program; in the middle
    of an operation, what remains of the operation will bring about (in its part of the memory) exactly what
    the operation does when it is not interrupted. *)
Theorem C66_fine_as_if_alone : forall w ts tr i sl σ n now,
  fine w ts tr -> nth_error ts i = Some (mkFw (mkWk sl σ n) now) ->
  exists w0 w1, alone w0 sl σ n (actions i tr) /\
    (forall b x, In b (w_blocks w1) -> In b (w_blocks w) /\ (b_base b <= x < b_base b + b_size b -> w_mem w1 x = w_mem w x)) /\
    match now with
    | Idle => w1 = w0
    | Busy o c es => run c w1 = exec o (w0, sl) /\ w_log w1 = w_log w0 ++ es
    end.
Proof.
  intros w ts tr i sl σ n now HT Hi. destruct (fine_inv _ _ _ HT) as (wvs & HF). destruct (fworld_of w ts tr wvs i _ HF Hi) as (wv0 & wv & _ & _ & Hloc & HR & _).
  pose proof HR as (R1 & _ & _ & _ & _ & R6 & _).
  assert (Hmem : forall b x, In b (w_blocks wv) -> In b (w_blocks w) /\ (b_base b <= x < b_base b + b_size b -> w_mem wv x = w_mem w x)).
  { intros b x Hb. split; [apply R6; auto|]. exact (R1 b x Hb). }
  destruct now as [|o c es].
  - exists wv, wv. split; [exact Hloc|]. split; [exact Hmem|reflexivity].
  - destruct (local_run _ _ _ _ _ _ _ _ Hloc) as (ws & Hone & _ & Hrun & Hlg & _). exists ws, wv. auto.
Qed.
(** Between its operations a thread's values are what the account says, whatever the others are doing. *)
Theorem C66_fine_reads_back : forall w ts tr i sl σ n,
  fine w ts tr -> nth_error ts i = Some (mkFw (mkWk sl σ n) Idle) ->
  (forall pl t v, at_place σ pl = Some (t, v) -> exec (ORead pl) (w, sl) = Ok (OutVal v) (w, sl)) /\
  (forall h t chk vs old, nth_error σ h = Some (ASeq t chk vs old) ->
     exec (OReadSeq h) (w, sl) = Ok (OutVals vs) (w, sl) /\ exec (OLen h) (w, sl) = Ok (OutNum (len vs)) (w, sl)).
Proof.
  intros w ts tr i sl σ n HT Hi. destruct (fine_inv _ _ _ HT) as (wvs & HF). destruct (fworld_of w ts tr wvs i _ HF Hi) as (wv0 & wv & _ & _ & Hloc & HR & _).
  destruct (Rt_real _ _ _ _ _ _ _ _ _ HR (alone_reach _ _ _ _ _ Hloc)) as (n' & HI). cbn [fw_wk wk_slots wk_vals wk_lost] in HI. exact (inv_reads w sl σ n' HI).
Qed.
(** When no thread is in the middle of an operation, every heap allocation has one owner, in one thread (or was
    lost by VBox::new with a panicking initializer, or by mem::forget). *)
Theorem C66_fine_no_leak : forall w ts tr, fine w ts tr -> (forall i k, nth_error ts i = Some k -> fw_now k = Idle) ->
  (forall i k h s a, nth_error ts i = Some k -> nth_error (wk_slots (fw_wk k)) h = Some s -> In a (slot_bases s) ->
     exists b, In b (w_blocks w) /\ b_base b = a /\ b_heap b = true) /\
  (forall i i' k k' h h' s s' a, nth_error ts i = Some k -> nth_error ts i' = Some k' ->
     nth_error (wk_slots (fw_wk k)) h = Some s -> nth_error (wk_slots (fw_wk k')) h' = Some s' -> In a (slot_bases s) -> In a (slot_bases s') -> i = i' /\ h = h') /\
  exists leaked, (length leaked <= list_sum (map (fun k => wk_lost (fw_wk k)) ts))%nat /\
    forall b, In b (w_blocks w) -> b_heap b = true ->
      In (b_base b) leaked \/ exists i k h s, nth_error ts i = Some k /\ nth_error (wk_slots (fw_wk k)) h = Some s /\ In (b_base b) (slot_bases s).
Proof.
  intros w ts tr HT Hid. destruct (fine_inv _ _ _ HT) as (wvs & Hw & Ht & Hl & Hall & Hin & Hdis).
  assert (Hm : forall i k, nth_error (map fw_wk ts) i = Some k <-> exists f, nth_error ts i = Some f /\ fw_wk f = k).
  { intros i k. rewrite nth_error_map. destruct (nth_error ts i) as [f|]; cbn; split; [intros E; injection E as <-; eauto|intros (f' & E & <-); congruence|discriminate|intros (f' & E & _); discriminate]. }
  assert (HI : MInv w (map fw_wk ts) tr).
  { split; [exact Hw|]. rewrite map_length. split; [exact Ht|]. exists wvs. split; [exact Hl|]. split; [|split; [exact Hin|exact Hdis]].
    intros i wv k Hwi Hk. apply Hm in Hk. destruct Hk as (f & Hf & <-). destruct (Hall i wv f Hwi Hf) as (A & _ & C). unfold local in A. rewrite (Hid i f Hf) in A. auto. }
  destruct (inv_no_leak _ _ _ HI) as (_ & H1 & H2 & L & HL & H3). split; [|split].
  - intros i k h s a Hi. apply (H1 i (fw_wk k)). apply Hm. eauto.
  - intros i i' k k' h h' s s' a Hi Hi'. apply (H2 i i' (fw_wk k) (fw_wk k')); apply Hm; eauto.
  - exists L. split; [rewrite map_map in HL; exact HL|]. intros b Hb Hh. destruct (H3 b Hb Hh) as [H|(i & k & h & s & Hi & Hs)]; [auto|]. right.
    apply Hm in Hi. destruct Hi as (f & Hf & <-). eauto 6.
Qed.

(** ** the runs of ThreadSpec.v are among these *)
Lemma run_to_end : forall (c : code (list slot) out) w ts tr i k o es r w' sl', fine w ts tr -> nth_error ts i = Some (mkFw k (Busy o c es)) ->
  ends (run c w) r w' sl' -> exists es', w_log w' = w_log w ++ es' /\
  fine w' (replace_nth ts i (mkFw k (Busy o (match r with Done x => CRet x sl' | Panicked => CPanic sl' end) (es ++ es')))) tr.
Proof.
  assert (Hrr : forall ts i (x y : fworker), replace_nth (replace_nth ts i x) i y = replace_nth ts i y).
  { induction ts as [|z ts IH]; intros [|i] x y; cbn; try reflexivity. now rewrite IH. }
  assert (Hsame : forall ts i (x : fworker), nth_error ts i = Some x -> replace_nth ts i x = ts).
  { induction ts as [|z ts IH]; intros [|i] x E; cbn in *; try discriminate; [now injection E as ->|]. now rewrite IH. }
  induction c as [a x|x|u|p f IH]; intros w ts tr i k o es r w' sl' HT Hi He; destruct r as [r|]; cbn [run ends] in He; try discriminate.
  - injection He as -> -> ->. exists []. rewrite !app_nil_r. split; [reflexivity|]. now rewrite Hsame.
  - injection He as -> ->. exists []. rewrite !app_nil_r. split; [reflexivity|]. now rewrite Hsame.
  - destruct k as [sl σ n]. pose proof (C66_fine_safe _ _ _ _ _ _ _ _ _ _ HT Hi) as X. cbn iota in X.
    destruct (perform p w) as [q w1|w1|u]; [| |discriminate]; destruct X as (e1 & L1 & T1).
    + destruct (fun A => IH (Some q) w1 _ tr i (mkWk sl σ n) o (es ++ e1) (Done r) w' sl' T1 A He) as (e2 & L2 & T2).
      { rewrite nth_replace_nth. destruct (Nat.eq_dec i i); [|congruence]. now rewrite Hi. }
      exists (e1 ++ e2). rewrite L2, L1, app_assoc. split; [reflexivity|]. rewrite Hrr, <- app_assoc in T2. exact T2.
    + destruct (fun A => IH None w1 _ tr i (mkWk sl σ n) o (es ++ e1) (Done r) w' sl' T1 A He) as (e2 & L2 & T2).
      { rewrite nth_replace_nth. destruct (Nat.eq_dec i i); [|congruence]. now rewrite Hi. }
      exists (e1 ++ e2). rewrite L2, L1, app_assoc. split; [reflexivity|]. rewrite Hrr, <- app_assoc in T2. exact T2.
  - destruct k as [sl σ n]. pose proof (C66_fine_safe _ _ _ _ _ _ _ _ _ _ HT Hi) as X. cbn iota in X.
    destruct (perform p w) as [q w1|w1|u]; [| |discriminate]; destruct X as (e1 & L1 & T1).
    + destruct (fun A => IH (Some q) w1 _ tr i (mkWk sl σ n) o (es ++ e1) Panicked w' sl' T1 A He) as (e2 & L2 & T2).
      { rewrite nth_replace_nth. destruct (Nat.eq_dec i i); [|congruence]. now rewrite Hi. }
      exists (e1 ++ e2). rewrite L2, L1, app_assoc. split; [reflexivity|]. rewrite Hrr, <- app_assoc in T2. exact T2.
    + destruct (fun A => IH None w1 _ tr i (mkWk sl σ n) o (es ++ e1) Panicked w' sl' T1 A He) as (e2 & L2 & T2).
      { rewrite nth_replace_nth. destruct (Nat.eq_dec i i); [|congruence]. now rewrite Hi. }
      exists (e1 ++ e2). rewrite L2, L1, app_assoc. split; [reflexivity|]. rewrite Hrr, <- app_assoc in T2. exact T2.
Qed.
Theorem C66_fine_covers : forall w ts tr, threads w ts tr -> fine w (map (fun k => mkFw k Idle) ts) tr.
Proof.
  assert (Hrr : forall ts i (x y : fworker), replace_nth (replace_nth ts i x) i y = replace_nth ts i y).
  { induction ts as [|z ts IH]; intros [|i] x y; cbn; try reflexivity. now rewrite IH. }
  assert (Hmr : forall ts i (x : worker), map (fun k => mkFw k Idle) (replace_nth ts i x) = replace_nth (map (fun k => mkFw k Idle) ts) i (mkFw x Idle)).
  { induction ts as [|z ts IH]; intros [|i] x; cbn; try reflexivity. now rewrite IH. }
  induction 1 as [w Hb|w ts tr H IH|w ts tr i sl σ n o r w' sl' σ' d es H IH Hi Hal He Ha Hl].
  - now constructor.
  - rewrite map_app. now constructor.
  - destruct (exec_coded o sl) as [c Hc].
    assert (Hi' : nth_error (map (fun k => mkFw k Idle) ts) i = Some (mkFw (mkWk sl σ n) Idle)) by (rewrite nth_error_map, Hi; reflexivity).
    assert (T1 := F_begin _ _ _ i sl σ n o c IH Hi' Hal Hc).
    assert (Hj : nth_error (replace_nth (map (fun k => mkFw k Idle) ts) i (mkFw (mkWk sl σ n) (Busy o c []))) i = Some (mkFw (mkWk sl σ n) (Busy o c []))).
    { rewrite nth_replace_nth. destruct (Nat.eq_dec i i); [|congruence]. now rewrite Hi'. }
    destruct (run_to_end c w _ tr i _ o [] r w' sl' T1 Hj) as (es' & L & T2); [rewrite Hc; exact He|]. rewrite Hl in L. apply app_inv_head in L. subst es'. rewrite Hrr in T2. cbn [app] in T2.
    rewrite Hmr. destruct r as [x|].
    + rewrite <- (Hrr _ i (mkFw (mkWk sl σ n) (Busy o (CRet x sl') es))). eapply F_return; [exact T2| |exact Ha]. rewrite nth_replace_nth. destruct (Nat.eq_dec i i); [|congruence]. now rewrite Hi'.
    + rewrite <- (Hrr _ i (mkFw (mkWk sl σ n) (Busy o (CPanic sl') es))). eapply F_panic; [exact T2| |exact Ha]. rewrite nth_replace_nth. destruct (Nat.eq_dec i i); [|congruence]. now rewrite Hi'.
Qed.

(** ** a concrete run: two threads in VBox::new at the same time. The first is interrupted after 3 of the 16
    accesses of its call, the second after 7; then the first goes on to its end, then the second *)
Fixpoint go (n : nat) (c : code (list slot) out) (w : world) : option (code (list slot) out * world) :=
  match n with
  | O => Some (c, w)
  | S n => match c with
           | CDo p f => match perform p w with Ok r w' => go n (f (Some r)) w' | Panic w' => go n (f None) w' | UB _ => None end
           | _ => None
           end
  end.
Lemma fine_go n : forall c w ts tr i k o es c' w' ts', fine w ts tr -> nth_error ts i = Some (mkFw k (Busy o c es)) -> go n c w = Some (c', w') ->
  (forall es, ts' es = replace_nth ts i (mkFw k (Busy o c' es))) -> exists es', fine w' (ts' es') tr.
Proof.
  assert (Hrr : forall ts i (x y : fworker), replace_nth (replace_nth ts i x) i y = replace_nth ts i y).
  { induction ts as [|z ts IH]; intros [|i] x y; cbn; try reflexivity. now rewrite IH. }
  assert (Hsame : forall ts i (x : fworker), nth_error ts i = Some x -> replace_nth ts i x = ts).
  { induction ts as [|z ts IH]; intros [|i] x E; cbn in *; try discriminate; [now injection E as ->|]. now rewrite IH. }
  induction n as [|n IH]; intros c w ts tr i k o es c' w' ts' HT Hi Hg Hts; cbn [go] in Hg.
  - injection Hg as <- <-. exists es. rewrite Hts. now rewrite Hsame.
  - destruct c as [| | |p f]; try discriminate. destruct k as [sl σ m]. pose proof (C66_fine_safe _ _ _ _ _ _ _ _ _ _ HT Hi) as X. cbn iota in X.
    destruct (perform p w) as [q w1|w1|u]; [| |discriminate]; destruct X as (e1 & _ & T1).
    + apply (IH (f (Some q)) w1 _ tr i (mkWk sl σ m) o (es ++ e1) c' w' ts' T1); [|exact Hg|intros e; rewrite Hrr; apply Hts].
      rewrite nth_replace_nth. destruct (Nat.eq_dec i i); [|congruence]. now rewrite Hi.
    + apply (IH (f None) w1 _ tr i (mkWk sl σ m) o (es ++ e1) c' w' ts' T1); [|exact Hg|intros e; rewrite Hrr; apply Hts].
      rewrite nth_replace_nth. destruct (Nat.eq_dec i i); [|congruence]. now rewrite Hi.
Qed.
Definition cc : code (list slot) out := proj1_sig (exec_coded op1 []).
Definition got (x : option (code (list slot) out * world)) : code (list slot) out * world := match x with Some y => y | None => (CUB UType, w_start) end.
Lemma got_go n c w : (match go n c w with Some _ => true | None => false end) = true -> go n c w = Some (fst (got (go n c w)), snd (got (go n c w))).
Proof. destruct (go n c w) as [[c' w']|]; [reflexivity|discriminate]. Qed.
Definition g1 := got (go 3 cc w_start).
Definition g2 := got (go 7 cc (snd g1)).
Definition g3 := got (go 13 (fst g1) (snd g2)).
Definition g4 := got (go 9 (fst g2) (snd g3)).
Definition next (c : code (list slot) out) : option prim := match c with CDo p _ => Some p | _ => None end.
Definition at_end (c : code (list slot) out) : option (out * list slot) := match c with CRet r sl => Some (r, sl) | _ => None end.
(** Both are in the middle of the call. *)
Example C66_fine_meets : exists es es' tr,
  fine (snd g2) [mkFw (mkWk [] [] 0) (Busy op1 (fst g1) es); mkFw (mkWk [] [] 0) (Busy op1 (fst g2) es')] tr.
Proof.
  assert (A1 : allowed [] op1).
  { apply L_new_box with i_ex; [apply t_ex_wf|apply p_ex_den| |vm_compute; reflexivity]. apply no_moves; [reflexivity|intros h []]. }
  assert (T0 : fine w_start [mkFw (mkWk [] [] 0) Idle; mkFw (mkWk [] [] 0) Idle] []).
  { apply (F_spawn w_start [mkFw (mkWk [] [] 0) Idle]). apply (F_spawn w_start []). constructor. reflexivity. }
  assert (Hc : forall w, run cc w = exec op1 (w, [])) by exact (proj2_sig (exec_coded op1 [])).
  pose proof (F_begin _ _ _ 0 [] [] 0 op1 cc T0 eq_refl A1 Hc) as T1. cbn [replace_nth] in T1.
  pose proof (F_begin _ _ _ 1 [] [] 0 op1 cc T1 eq_refl A1 Hc) as T2. cbn [replace_nth] in T2.
  assert (E1 : go 3 cc w_start = Some (fst g1, snd g1)) by (apply got_go; vm_compute; reflexivity).
  destruct (fine_go 3 cc _ _ _ 0 _ op1 [] _ _ (fun es => [mkFw (mkWk [] [] 0) (Busy op1 (fst g1) es); mkFw (mkWk [] [] 0) (Busy op1 cc [])]) T2 eq_refl E1 (fun es => eq_refl)) as (e1 & T3).
  assert (E2 : go 7 cc (snd g1) = Some (fst g2, snd g2)) by (apply got_go; vm_compute; reflexivity).
  destruct (fine_go 7 cc _ _ _ 1 _ op1 [] _ _ (fun es => [mkFw (mkWk [] [] 0) (Busy op1 (fst g1) e1); mkFw (mkWk [] [] 0) (Busy op1 (fst g2) es)]) T3 eq_refl E2 (fun es => eq_refl)) as (e2 & T4).
  exists e1, e2, []. exact T4.
Qed.
(** The next access of the first is a write of the length byte of its string, that of the second a call of the
    client's closure. *)
Example C66_fine_meets_next : next (fst g1) = Some (MStore 4112 1 [By 3]) /\ next (fst g2) = Some (MEmit (ECall 1)).
Proof. split; vm_compute; reflexivity. Qed.
(** Both reach the end of the call, with their boxes at different addresses, and read what they should. *)
Example C66_fine_meets_end : at_end (fst g3) = Some (OutUnit, [SBox t_ex 4096]) /\ at_end (fst g4) = Some (OutUnit, [SBox t_ex 8192]) /\
  out_of (exec (ORead (PlObj 0 PHere)) (snd g4, [SBox t_ex 4096])) = Some (OutVal v_ex) /\
  out_of (exec (ORead (PlObj 0 PHere)) (snd g4, [SBox t_ex 8192])) = Some (OutVal v_ex).
Proof. repeat split; vm_compute; reflexivity. Qed.
