(** ProgSteps.v - every operation of a program preserves the invariant and does what the functional
    account says. *)
From Verif Require Export Places.

Lemma moved_base sl σ h s v a : at_h sl σ h s v -> moved_at sl σ h a -> hbases s v = [a].
Proof. intros H (t & x & H'). destruct (at_h_fun _ _ _ _ _ _ _ H H') as [-> ->]. reflexivity. Qed.
Lemma unmoved_bases w sl σ n ms bs h s v x : Inv w sl σ n -> Forall2 (moved_at sl σ) ms bs ->
  at_h sl σ h s v -> ~ In h ms -> In x (hbases s v) -> ~ In x bs.
Proof.
  intros (_ & _ & _ & Hdis & _) Hm Ha Hn Hx Hin. destruct (proj1 (moved_in _ _ _ _ Hm) x Hin) as (h' & Hh' & (t & u & Ha')).
  apply Hn. replace h with h'; [exact Hh'|]. symmetry. eapply (Hdis h h' s v _ _ x); [exact Ha|exact Ha'|exact Hx|left; reflexivity].
Qed.
Lemma owner_unmoved w sl σ n ms bs h s v x : Inv w sl σ n -> Forall2 (moved_at sl σ) ms bs ->
  at_h sl σ h s v -> In x (hbases s v) -> ~ In x bs -> ~ In h ms.
Proof.
  intros _ Hm Ha Hx Hn Hin. destruct (proj2 (moved_in _ _ _ _ Hm) h Hin) as (a & Ha' & Hma).
  rewrite (moved_base _ _ _ _ _ _ Ha Hma) in Hx. destruct Hx as [->|[]]. contradiction.
Qed.

(** The moved boxes are gone; possibly some blocks have leaked. *)
Lemma inv_consume w sl σ n w' ms bs extra n' :
  Inv w sl σ n -> Forall2 (moved_at sl σ) ms bs -> wf_blocks (w_blocks w') -> untouched w w' bs ->
  (forall b, In b (w_blocks w') -> b_heap b = true -> In (b_base b) extra \/ (In b (w_blocks w) /\ ~ In (b_base b) bs)) ->
  (n + length extra <= n')%nat ->
  Inv w' (kill sl ms) (kill_vals σ ms) n'.
Proof.
  intros HI Hm Hw Hu Hb Hn. apply (inv_step w sl σ n w' _ _ n' bs (length sl) extra HI Hw Hu); auto.
  - apply kill_lens, HI.
  - intros h s v Ha. destruct (at_h_kill _ _ _ _ _ _ Ha) as [[Ha0 Hni]|(_ & -> & ->)].
    + left. split; [exact Ha0|]. intros x Hx. eapply unmoved_bases; eauto.
    + right. split; [exact I|]. left. reflexivity.
  - intros b Hin Hh. destruct (Hb b Hin Hh) as [H|[H1 H2]]; [auto|]. right. right. split; [exact H1|].
    intros h s v Ha Hx. apply at_h_keep; [exact Ha|]. eapply owner_unmoved; eauto.
Qed.
(** The moved boxes are gone and a value is created. *)
Lemma inv_create w sl σ n w' ms bs s0 v0 :
  Inv w sl σ n -> Forall2 (moved_at sl σ) ms bs -> wf_blocks (w_blocks w') -> untouched w w' bs ->
  rep w' s0 v0 -> (forall x, In x (hbases s0 v0) -> forall b, In b (w_blocks w) -> b_base b <> x) ->
  (forall b, In b (w_blocks w') -> b_heap b = true -> In (b_base b) (hbases s0 v0) \/ (In b (w_blocks w) /\ ~ In (b_base b) bs)) ->
  Inv w' (kill sl ms ++ [s0]) (kill_vals σ ms ++ [v0]) n.
Proof.
  intros HI Hm Hw Hu Hr Hf Hb. assert (Hl : length (kill sl ms) = length (kill_vals σ ms)) by apply kill_lens, HI.
  apply (inv_step w sl σ n w' _ _ n bs (length (kill sl ms)) [] HI Hw Hu).
  - rewrite !app_length. cbn. lia.
  - intros h s v Ha. destruct (at_h_snoc _ _ _ _ _ _ _ Hl Ha) as [Ha1|(-> & -> & ->)].
    + destruct (at_h_kill _ _ _ _ _ _ Ha1) as [[Ha0 Hni]|(_ & -> & ->)].
      * left. split; [exact Ha0|]. intros x Hx. eapply unmoved_bases; eauto.
      * right. split; [exact I|]. left. reflexivity.
    + right. split; [exact Hr|]. right. split; [reflexivity|]. intros x Hx. right. apply Hf, Hx.
  - cbn. lia.
  - intros b Hin Hh. destruct (Hb b Hin Hh) as [H|[H1 H2]].
    + right. left. exists (length (kill sl ms)), s0, v0. split; [now apply at_h_snoc_r|exact H].
    + right. right. split; [exact H1|]. intros h s v Ha Hx. apply at_h_snoc_l; [exact Hl|]. apply at_h_keep; [exact Ha|]. eapply owner_unmoved; eauto.
Qed.
(** The moved boxes are gone and value number [h0] changes. *)
Lemma inv_change w sl σ n w' ms bs h0 s0 v0 s1 v1 :
  Inv w sl σ n -> Forall2 (moved_at sl σ) ms bs -> at_h sl σ h0 s0 v0 -> ~ In h0 ms ->
  wf_blocks (w_blocks w') -> untouched w w' (hbases s0 v0 ++ bs) ->
  rep w' s1 v1 -> (forall x, In x (hbases s1 v1) -> In x (hbases s0 v0) \/ forall b, In b (w_blocks w) -> b_base b <> x) ->
  (forall b, In b (w_blocks w') -> b_heap b = true ->
     In (b_base b) (hbases s1 v1) \/ (In b (w_blocks w) /\ ~ In (b_base b) (hbases s0 v0 ++ bs))) ->
  Inv w' (update (kill sl ms) h0 s1) (replace_nth (kill_vals σ ms) h0 v1) n.
Proof.
  intros HI Hm Ha0 Hni0 Hw Hu Hr Hf Hb.
  apply (inv_step w sl σ n w' _ _ n (hbases s0 v0 ++ bs) h0 [] HI Hw Hu).
  - apply upd_lens, kill_lens, HI.
  - intros h s v Ha. destruct (at_h_update _ _ _ _ _ _ _ _ Ha) as [[Ha1 Hne]|(-> & -> & ->)].
    + destruct (at_h_kill _ _ _ _ _ _ Ha1) as [[Hao Hni]|(_ & -> & ->)].
      * left. split; [exact Hao|]. intros x Hx Hin. apply in_app_or in Hin. destruct Hin as [Hin|Hin].
        -- apply Hne. destruct HI as (_ & _ & _ & Hdis & _). eapply (Hdis h h0); [exact Hao|exact Ha0|exact Hx|exact Hin].
        -- eapply (unmoved_bases w sl σ n ms bs h); eauto.
      * right. split; [exact I|]. left. reflexivity.
    + right. split; [exact Hr|]. right. split; [reflexivity|]. intros x Hx. destruct (Hf x Hx) as [H|H]; [left; eauto|right; exact H].
  - cbn. lia.
  - intros b Hin Hh. destruct (Hb b Hin Hh) as [H|[H1 H2]].
    + right. left. exists h0, s1, v1. split; [|exact H]. eapply at_h_update_r. eapply at_h_keep; eauto.
    + right. right. split; [exact H1|]. intros h s v Ha Hx. rewrite in_app_iff in H2.
      apply at_h_update_l; [apply at_h_keep; [exact Ha|eapply owner_unmoved; eauto]|].
      intros ->. destruct (at_h_fun _ _ _ _ _ _ _ Ha Ha0) as [-> ->]. tauto.
Qed.
(** Value number [h0] changes in place. *)
Lemma inv_inplace w sl σ n w' h0 s0 v0 v1 :
  Inv w sl σ n -> at_h sl σ h0 s0 v0 -> w_blocks w' = w_blocks w -> untouched w w' (hbases s0 v0) ->
  rep w' s0 v1 -> hblocks s0 v1 = hblocks s0 v0 -> Inv w' sl (replace_nth σ h0 v1) n.
Proof.
  intros HI Ha Hb Hu Hr He. assert (Eb : hbases s0 v1 = hbases s0 v0) by (unfold hbases; now rewrite He).
  assert (Esl : sl = update (kill sl []) h0 s0) by (cbn; rewrite update_replace; symmetry; apply replace_same, Ha).
  rewrite Esl. change σ with (kill_vals σ []).
  apply (inv_change w sl σ n w' [] [] h0 s0 v0 s0 v1); auto.
  - rewrite Hb. apply HI.
  - now rewrite app_nil_r.
  - rewrite Eb. auto.
  - intros b Hin Hh. rewrite Hb in Hin. rewrite Eb, app_nil_r.
    destruct (in_dec N.eq_dec (b_base b) (hbases s0 v0)); auto.
Qed.
(** Value number [h0] is dropped. *)
Lemma inv_drop w sl σ n w' h0 s0 v0 :
  Inv w sl σ n -> at_h sl σ h0 s0 v0 -> wf_blocks (w_blocks w') -> untouched w w' (hbases s0 v0) ->
  (forall b, In b (w_blocks w') -> b_heap b = true -> In b (w_blocks w) /\ ~ In (b_base b) (hbases s0 v0)) ->
  Inv w' (kill sl [h0]) (kill_vals σ [h0]) n.
Proof.
  intros HI Ha Hw Hu Hb. change (kill sl [h0]) with (update (kill sl []) h0 SDead).
  change (kill_vals σ [h0]) with (replace_nth (kill_vals σ []) h0 ADead).
  apply (inv_change w sl σ n w' [] [] h0 s0 v0 SDead ADead); auto.
  - now rewrite app_nil_r.
  - exact I.
  - intros b Hin Hh. rewrite app_nil_r. auto.
Qed.
Lemma inv_log w sl σ n evs : Inv w sl σ n -> Inv (add_log w evs) sl σ n.
Proof.
  intros HI. apply (inv_step w sl σ n (add_log w evs) sl σ n [] 0%nat [] HI); try apply HI.
  - intros b Hb _. split; [exact Hb|reflexivity].
  - intros h s v Ha. left. split; [exact Ha|]. intros x _ [].
  - cbn. lia.
  - intros b Hb _. right. right. auto.
Qed.

(** ** every operation *)
Definition step_ok (σ : list aval) (o : op) (w : world) (r : outcome) (w' : world) (sl' : list slot) (n' : nat) : Prop :=
  exists σ' evs, astep σ o r σ' (drops_of evs) /\ w_log w' = w_log w ++ evs /\ Inv w' sl' σ' n'.
Definition lost_by (o : op) (n : nat) : nat := match o with ONewBox _ _ => S n | _ => n end.
Definition given_up (o : op) (n : nat) : nat := match o with OForget _ => S n | _ => n end.
Definition refused_box (w : world) (σ : list aval) (o : op) : Prop :=
  exists t p i, o = ONewBox t p /\ den σ t p i /\
    forall q, w_alloc w (w_tick w) (isize t i) (sp_align t) = Some q -> valid_answer (w_blocks w) q (isize t i) (sp_align t) = false.
Definition step_res (σ : list aval) (o : op) (w : world) (n : nat) (r : res config out) : Prop :=
  match r with
  | Ok x (w', sl') => step_ok σ o w (Done x) w' sl' (given_up o n)
  | Panic (w', sl') => step_ok σ o w Panicked w' sl' (lost_by o n)
  | UB u => u = UNull /\ refused_box w σ o
  end.
Lemma drops_run t i v : iwt t i -> ival t i = Some v -> drops_of (fst (irun t i)) = [].
Proof.
  intros Hi Ev. destruct (proj1 irun_own_all t i Hi) as [_ H]. rewrite (proj1 irun_ival), Ev in H. apply H.
Qed.

Lemma step_new_box w sl σ n t p : Inv w sl σ n -> allowed σ (ONewBox t p) -> step_res σ (ONewBox t p) w n (exec (ONewBox t p) (w, sl)).
Proof.
  intros HI Hal. inversion Hal as [? ? i0 Hwf Hden Hbo Hpos| | | | | | | | | | | | | | | | | | | | |]; subst.
  pose proof HI as (Hbl & _). destruct (proj1 (eval_all w sl σ n HI) t p i0 Hden Hwf) as (i & E & En & Hi & Hm & Hs).
  assert (Hu : usable w t i) by (eapply (eval_ready w sl σ n t p i []); eauto).
  cbn [exec]. unfold call. step E. rewrite vbox_new_strip. subst i0. rewrite isize_noaddr in Hpos.
  destruct (vbox_new t i w) as [a w'|w'|u] eqn:Ex; cbn [fst snd step_res].
  - destruct (vbox_new_ok t w i a w' Hwf Hbl Hu Ex) as (v & Ev & Hat & Hsz & _ & Hw' & Hva & Hbk & Hlog & Hut).
    assert (Hft : fits t i = true).
    { destruct (vbox_new_cases t w i Hwf Hbl Hu) as [(_ & w1 & E1 & _)|[(_ & _ & E1)|[(_ & _ & _ & E1)|(Hft & _)]]]; [| | |exact Hft]; rewrite Ex in E1; discriminate. }
    eexists _, _. split; [|split; [exact Hlog|]].
    + cbn [drops_of]. rewrite (drops_run t i v Hi Ev). apply A_new_box with (i := noaddr i); [exact Hden|now rewrite fits_noaddr|]. rewrite (proj1 ival_noaddr); exact Ev.
    + apply (inv_create w sl σ n w' (moves p) (ibases t i)); auto.
      * cbn [rep]. auto.
      * intros x [<-|[]] b Hb E1. destruct (fresh_apart _ _ _ _ Hva) as (_ & _ & _ & Fb & _). specialize (Fb b Hb).
        destruct Hbl as [Hbl _]. specialize (Hbl b Hb). cbn [box_block b_base] in E1. lia.
      * intros b Hb _. rewrite Hbk in Hb. destruct Hb as [<-|Hb]; [left; left; reflexivity|right; now apply in_without].
  - destruct (vbox_new_panic t w i w' Hwf Hbl Hu Ex) as (Hw' & Hut & [(Hf & Hlog & Hbk)|(Hf & Ev & q & Hlog & Hbk & Hva)]).
    + eexists _, _. split; [|split; [exact Hlog|]].
      * rewrite <- (proj1 idrop_noaddr). apply A_new_box_large with (i := noaddr i); [exact Hden|]. now rewrite fits_noaddr.
      * apply (inv_consume w sl σ n w' (moves p) (ibases t i) []); auto; [|cbn; lia].
        intros b Hb _. right. rewrite Hbk in Hb. now apply in_without in Hb.
    + eexists _, _. split; [|split; [exact Hlog|]].
      * cbn [drops_of]. rewrite <- (proj1 irun_noaddr). apply A_new_box_panic with (i := noaddr i); [exact Hden|now rewrite fits_noaddr|]. rewrite (proj1 ival_noaddr); exact Ev.
      * apply (inv_consume w sl σ n w' (moves p) (ibases t i) [q]); auto; [|cbn; lia].
        intros b Hb _. rewrite Hbk in Hb. destruct Hb as [<-|Hb]; [left; left; reflexivity|right; now apply in_without in Hb].
  - destruct (vbox_new_cases t w i Hwf Hbl Hu) as [(_ & w1 & E1 & _)|[(_ & E0 & E1)|[(_ & _ & Hr & E1)|(_ & _ & q & w1 & _ & _ & _ & HB)]]];
      rewrite Ex in *; try discriminate.
    + lia.
    + injection E1 as ->. split; [reflexivity|]. exists t, p, (noaddr i). split; [reflexivity|]. split; [exact Hden|]. rewrite isize_noaddr. exact Hr.
    + destruct (snd (irun t i)); destruct HB as (w2 & E2 & _); discriminate.
Qed.
Lemma step_new_owned w sl σ n t p : Inv w sl σ n -> allowed σ (ONewOwned t p) -> step_res σ (ONewOwned t p) w n (exec (ONewOwned t p) (w, sl)).
Proof.
  intros HI Hal. inversion Hal as [|? ? i0 Hwf Hden Hbo| | | | | | | | | | | | | | | | | | | |]; subst.
  pose proof HI as (Hbl & _). destruct (proj1 (eval_all w sl σ n HI) t p i0 Hden Hwf) as (i & E & En & Hi & Hm & Hs).
  assert (Hu : usable w t i) by (eapply (eval_ready w sl σ n t p i []); eauto).
  cbn [exec]. unfold call. step E. rewrite owned_new_in_strip. subst i0.
  pose proof (owned_new_in_cases t w i Hwf Hbl Hu) as HC.
  destruct (owned_new_in t i w) as [a w'|w'|u] eqn:Ex; cbn [fst snd step_res]; [| |contradiction].
  - destruct HC as (v & Ev & Hat & Hsz & Hw' & Hbk & Hlog & Hut & Hva & Hft).
    eexists _, _. split; [|split; [exact Hlog|]].
    + rewrite (drops_run t i v Hi Ev). apply A_new_owned with (i := noaddr i); [exact Hden|now rewrite fits_noaddr|]. rewrite (proj1 ival_noaddr); exact Ev.
    + assert (Hhb : hblocks (SOwn t a) (AOwn t v) = if isize t i =? 0 then [] else [mkB a (isize t i) (sp_align t) false])
        by (cbn [hblocks]; unfold own_block; now rewrite Hsz).
      apply (inv_create w sl σ n w' (moves p) (ibases t i)); auto.
      * cbn [rep]. split; [reflexivity|]. split; [exact Hwf|]. split; [exact Hat|]. rewrite Hhb, Hbk. intros b Hb. apply in_or_app. auto.
      * unfold hbases. rewrite Hhb. intros x Hx b Hb E1. destruct (N.eqb_spec (isize t i) 0) as [E0|E0]; [contradiction|].
        destruct Hx as [<-|[]]. cbn [b_base] in E1. destruct (fresh_apart _ _ _ _ Hva) as (_ & _ & _ & Fb & _). specialize (Fb b Hb).
        destruct Hbl as [Hbl _]. specialize (Hbl b Hb). lia.
      * intros b Hb Hh. rewrite Hbk in Hb. apply in_app_or in Hb. destruct Hb as [Hb|Hb]; [|right; now apply in_without].
        destruct (isize t i =? 0); [contradiction|]. destruct Hb as [<-|[]]. discriminate.
  - destruct HC as (Hw' & Hut & Hlog & Hbk).
    assert (HI' : Inv w' (kill sl (moves p)) (kill_vals σ (moves p)) n).
    { apply (inv_consume w sl σ n w' (moves p) (ibases t i) []); auto. cbn. lia. }
    destruct Hlog as [Hlog|(Hft & Ev & Hlog)]; eexists _, _; (split; [|split; [exact Hlog|exact HI']]).
    + rewrite <- (proj1 idrop_noaddr). now apply A_new_owned_fail with (i := noaddr i).
    + rewrite <- (proj1 irun_noaddr). apply A_new_owned_panic with (i := noaddr i); [exact Hden|now rewrite fits_noaddr|]. rewrite (proj1 ival_noaddr); exact Ev.
Qed.
Lemma seq_slot w sl σ n h t chk vs old : Inv w sl σ n -> nth_error σ h = Some (ASeq t chk vs old) ->
  exists s, at_h sl σ h (SSeq t chk s) (ASeq t chk vs old) /\ wf_ty t /\ nonzst t /\ seq_at w t chk s vs /\
    (chk = true -> bits_within w t s vs old).
Proof.
  intros HI Hv. destruct (at_h_vals w sl σ n h _ HI Hv) as (s & Hah & Hrep).
  destruct s as [t0 a|t0 a|t0 c s|]; cbn [rep] in Hrep; try contradiction. destruct Hrep as ((-> & -> & Hwf & Hz) & Hat & Hb).
  exists s. auto.
Qed.
Lemma step_new_seq w sl σ n t chk : Inv w sl σ n -> allowed σ (ONewSeq t chk) -> step_res σ (ONewSeq t chk) w n (exec (ONewSeq t chk) (w, sl)).
Proof.
  intros HI Hal. inversion Hal as [| |? ? Hwf Hz| | | | | | | | | | | | | | | | | | |]; subst. cbn [exec step_res].
  exists (σ ++ [ASeq t chk [] []]), []. split; [apply A_new_seq|]. split; [now rewrite app_nil_r|].
  change sl with (kill sl []). change σ with (kill_vals σ []).
  apply (inv_create w sl σ n w [] []); auto.
  - apply HI.
  - apply untouched_refl.
  - cbn [rep]. split; [auto|]. split; [now apply seq_new_at|]. intros _. apply seq_new_bits.
Qed.
Lemma push_log t chk w s i vs : wf_ty t -> nonzst t -> wf_blocks (w_blocks w) -> seq_at w t chk s vs -> push_ready w t chk s i ->
  match seq_push t chk i (w, s) with
  | Ok _ (w', _) => ilens t i = true /\ exists evs, w_log w' = w_log w ++ evs /\ drops_of evs = drops_of (fst (irun t i))
  | Panic (w', _) => exists evs, w_log w' = w_log w ++ evs /\
      (drops_of evs = drops_of (idrop t i) \/ (ilens t i = true /\ ival t i = None /\ drops_of evs = drops_of (fst (irun t i))))
  | UB _ => False
  end.
Proof.
  intros Hwf Hz Hbl Hat Hr. pose proof (seq_push_cases t chk w s i vs Hwf Hz Hbl Hat Hr) as HP.
  unfold push_spec in HP. destruct HP as [(w1 & w' & -> & Href & U)|(Hzl & w1 & s1 & w2 & Hroom & Hneed & Hbl1 & Hat1 & Hr1 & Hmk & [Hf Hbx] & Hbits & Hat2 & HP)].
  - exists (idrop t i). split; [|auto]. rewrite (upd_log_eq _ _ _ _ _ _ U). f_equal. apply (push_refused_same _ _ _ _ _ _ Href).
  - destruct Hmk as (M1 & M2 & M3 & M4 & M5).
    assert (Hlog : exists e1, w_log w2 = w_log w ++ e1 /\ drops_of e1 = []).
    { rewrite M4. destruct Hroom as [(H & -> & ->)|(Hg & Es & G)]; [exists []; rewrite app_nil_r; auto|].
      destruct G as (G1 & G2 & G3 & G4 & G5 & G6 & G7 & G8 & G9). eexists. split; [exact G9|].
      destruct (s_cap s =? 0); reflexivity. }
    destruct Hlog as (e1 & L1 & D1). rewrite (proj1 irun_ival) in HP. destruct (ival t i) as [v|].
    + destruct HP as (w' & -> & U & _). split; [exact Hzl|]. exists (e1 ++ fst (irun t i)). rewrite (upd_log_eq _ _ _ _ _ _ U), L1, app_assoc, drops_app, D1. auto.
    + destruct HP as (w' & -> & U). exists (e1 ++ fst (irun t i)). rewrite (upd_log_eq _ _ _ _ _ _ U), L1, app_assoc, drops_app, D1. auto.
Qed.
Lemma step_push w sl σ n h p : Inv w sl σ n -> allowed σ (OPush h p) -> step_res σ (OPush h p) w n (exec (OPush h p) (w, sl)).
Proof.
  intros HI Hal. inversion Hal as [| | |? ? t chk vs old i0 Hh Hden Hbo| | | | | | | | | | | | | | | | | |]; subst.
  pose proof HI as (Hbl & _). destruct (seq_slot w sl σ n h t chk vs old HI Hh) as (s & Hah & Hwf & Hz & Hat & Hbits).
  destruct (proj1 (eval_all w sl σ n HI) t p i0 Hden Hwf) as (i & E & En & Hi & Hm & Hs).
  assert (Hbase : hbases (SSeq t chk s) (ASeq t chk vs old) = seq_base s) by (apply hbases_seq; eauto).
  assert (Hu : push_ready w t chk s i).
  { apply (eval_ready w sl σ n t p i [h]); auto. unfold seq_bytes. destruct (N.eqb_spec (s_cap s) 0) as [E0|E0]; [left; reflexivity|right].
    exists h, (SSeq t chk s), (ASeq t chk vs old). split; [left; reflexivity|]. split; [exact Hah|]. right. cbn [hblocks].
    destruct (N.eqb_spec (s_cap s) 0); [lia|]. eexists. split; [left; reflexivity|]. cbn. lia. }
  assert (Hnm : ~ In h (moves p)).
  { intros Hin. destruct (proj1 (proj2 Hbo) h Hin) as [_ X]. apply X. left. reflexivity. }
  cbn [exec]. rewrite (proj1 Hah). unfold call_seq. rewrite (bind_ok _ _ _ _ _ (lft_ok _ _ s _ _ E)). rewrite seq_push_strip. subst i0.
  pose proof (push_inv_ok t chk w s i vs Hwf Hz Hbl Hat Hu) as HP. pose proof (push_log t chk w s i vs Hwf Hz Hbl Hat Hu) as HL.
  assert (Hgen : forall w' s' vs', push_inv t chk w s i vs vs' w' s' ->
     Inv w' (update (kill sl (moves p)) h (SSeq t chk s')) (replace_nth (kill_vals σ (moves p)) h (ASeq t chk vs' old)) n).
  { intros w' s' vs' (P1 & P2 & P3 & P4 & P5 & P6).
    assert (Hbase' : hbases (SSeq t chk s') (ASeq t chk vs' old) = seq_base s') by (apply hbases_seq; eauto).
    apply (inv_change w sl σ n w' (moves p) (ibases t i) h (SSeq t chk s) (ASeq t chk vs old)); auto.
    - now rewrite Hbase.
    - cbn [rep]. split; [auto|]. split; [exact P1|]. intros Hc. apply P4; auto.
    - rewrite Hbase', Hbase. intros x Hx. unfold seq_base in Hx. destruct (N.eqb_spec (s_cap s') 0); [contradiction|]. destruct Hx as [<-|[]].
      destruct (in_dec N.eq_dec (s_ptr s') (seq_base s)) as [Hin|Hni]; [left; exact Hin|right]. intros b Hb Eb. apply Hni.
      rewrite <- Eb. apply P5; auto. lia.
    - rewrite Hbase', Hbase. intros b Hb _. destruct (P6 b Hb) as [[Hc ->]|H]; [left|right; exact H].
      unfold seq_base. destruct (N.eqb_spec (s_cap s') 0); [lia|]. left. reflexivity. }
  destruct (seq_push t chk i (w, s)) as [u [w' s']|[w' s']|u] eqn:Ex; cbn [fst snd step_res]; [| |contradiction].
  - destruct HP as (v & Ev & HP). destruct HL as (Hzl & evs & Hlog & Hd). eexists _, evs. split; [|split; [exact Hlog|apply Hgen, HP]].
    rewrite Hd, (drops_run t i v Hi Ev). eapply A_push; [exact Hh|exact Hden|now rewrite (proj1 ilens_noaddr)|]. rewrite (proj1 ival_noaddr). exact Ev.
  - destruct HL as (evs & Hlog & Hd). exists (kill_vals σ (moves p)), evs.
    assert (Eσ : replace_nth (kill_vals σ (moves p)) h (ASeq t chk vs old) = kill_vals σ (moves p)).
    { apply replace_same. assert (Hk : at_h (kill sl (moves p)) (kill_vals σ (moves p)) h (SSeq t chk s) (ASeq t chk vs old)) by (apply at_h_keep; auto). apply Hk. }
    split; [|split; [exact Hlog|rewrite <- Eσ; cbn [lost_by]; apply Hgen, HP]].
    destruct Hd as [Hd|(Hzl & Ev & Hd)]; rewrite Hd.
    + rewrite <- (proj1 idrop_noaddr). eapply A_push_fail; eauto.
    + rewrite <- (proj1 irun_noaddr). eapply A_push_panic; [exact Hh|exact Hden|now rewrite (proj1 ilens_noaddr)|]. rewrite (proj1 ival_noaddr). exact Ev.
Qed.
Lemma drops_map l : drops_of (map EDrop l) = l.
Proof. induction l; cbn; congruence. Qed.
Lemma step_drop w sl σ n h : Inv w sl σ n -> allowed σ (ODrop h) -> step_res σ (ODrop h) w n (exec (ODrop h) (w, sl)).
Proof.
  intros HI Hal. inversion Hal as [| | | |? v Hh Hnd| | | | | | | | | | | | | | | | |]; subst. pose proof HI as (Hbl & _).
  destruct (at_h_vals w sl σ n h _ HI Hh) as (s & Hah & Hrep). cbn [exec]. rewrite (proj1 Hah).
  destruct s as [t a|t a|t c s|], v as [t' x|t' x|t' c' vs old|]; cbn [rep] in Hrep; try contradiction.
  - destruct Hrep as (<- & Hwf & Ho & Hb). unfold call. rewrite (vbox_drop_ok t w a x Hwf Ho Hb). cbn [fst snd step_res].
    eexists _, _. split; [|split; [reflexivity|]].
    + rewrite drops_app, drops_map. cbn [drops_of]. rewrite app_nil_r. change (vdrops t x) with (owned_drops (ABox t x)). now apply A_drop.
    + apply (inv_drop w sl σ n _ h (SBox t a) (ABox t x)); auto; cbn [add_log set_blocks w_blocks w_mem].
      * now apply wf_blocks_without.
      * intros b Hbb Hn. split; [apply in_without; auto|reflexivity].
      * intros b Hbb _. now apply in_without in Hbb.
  - destruct Hrep as (<- & Hwf & Ho & Hb). unfold call. rewrite (owned_drop_ok t w a x Hwf Ho). cbn [fst snd step_res].
    eexists _, _. split; [|split; [reflexivity|]].
    + rewrite drops_map. change (vdrops t x) with (owned_drops (AOwn t x)). now apply A_drop.
    + apply (inv_drop w sl σ n _ h (SOwn t a) (AOwn t x)); auto; cbn [add_log w_blocks w_mem].
      * intros b Hbb Hn. split; [exact Hbb|reflexivity].
      * intros b Hbb Hheap. split; [exact Hbb|]. intros Hin.
        apply (hblock_base w (SOwn t a) (AOwn t x) b Hbl) in Hin; auto; [|cbn [rep]; auto]. cbn [hblocks] in Hin.
        destruct (vsize t x =? 0); [contradiction|]. destruct Hin as [<-|[]]. discriminate.
  - destruct Hrep as ((<- & <- & Hwf & Hz) & Hat & Hb). unfold call_seq.
    destruct (seq_drop_ok w t c s vs Hwf Hbl Hat) as (w' & s' & E & U). rewrite E. cbn [fst snd step_res].
    assert (Hbase : hbases (SSeq t c s) (ASeq t c vs old) = seq_base s) by (apply hbases_seq; eauto).
    eexists _, _. split; [|split; [apply (upd_log_eq _ _ _ _ _ _ U)|]].
    + rewrite drops_app, drops_map.
      replace (drops_of (seq_free t c s)) with (@nil (list cell)) by (unfold seq_free; destruct (s_cap s =? 0); reflexivity).
      rewrite app_nil_r. replace (all_drops t vs) with (owned_drops (ASeq t c vs old)) by reflexivity. now apply A_drop.
    + apply (inv_drop w sl σ n _ h (SSeq t c s) (ASeq t c vs old)); auto; rewrite ?Hbase.
      * eapply upd_wf; eauto.
      * eapply untouched_upd0; [exact U|apply incl_refl].
      * intros b Hbb _. rewrite (upd_blocks _ _ _ _ _ _ U) in Hbb. now apply in_without in Hbb.
Qed.
Lemma step_assign w sl σ n pl q new : Inv w sl σ n -> allowed σ (OAssign pl q new) -> step_res σ (OAssign pl q new) w n (exec (OAssign pl q new) (w, sl)).
Proof.
  intros HI Hal. inversion Hal as [| | | | |? ? ? t v f Hp Hml Hl| | | | | | | | | | | | | | | |]; subst. pose proof HI as (Hbl & _ & Hrep & _).
  destruct (resolve_ok w sl σ n pl t v HI Hp) as (a & s0 & v0 & E & Hwf & Ho & Hah & Hst & Hput).
  cbn [exec]. unfold call. step E. cbn [fst snd].
  pose proof (assign_ok t w a v q f new Hwf Ho Hml Hl) as HA. destruct (leaf v q) as [b|] eqn:El.
  - destruct HA as (w' & o & E1 & Hle & U & _ & Ho' & Hsh). rewrite E1. cbn [fst snd step_res].
    pose proof (upd_blocks _ _ _ _ _ _ U) as Ub. rewrite without_nil in Ub.
    assert (Hm : same_outside (w_mem w) (w_mem w') a (vsize t v)) by (intros x Hx; apply (upd_mem _ _ _ _ _ _ U); lia).
    destruct (Hput w' (put v q new) Ub Hm Ho' Hsh) as (v1 & Ep & Hr1 & Hb1).
    exists (put_place σ pl (put v q new)), (drop_events f [b]). split; [|split; [apply (upd_log_eq _ _ _ _ _ _ U)|]].
    + replace (drops_of (drop_events f [b])) with (if f_drop f then [b] else []) by (unfold drop_events; destruct (f_drop f); reflexivity).
      eapply A_assign; eauto.
    + rewrite Ep. apply (inv_inplace w sl σ n w' _ s0 v0 v1); auto. eapply storage_untouched; eauto.
  - rewrite HA. cbn [step_res]. exists σ, []. split; [eapply A_assign_range; eauto|]. split; [now rewrite app_nil_r|]. exact HI.
Qed.
Lemma step_controllers w sl σ n pl news : Inv w sl σ n -> allowed σ (OControllers pl news) -> step_res σ (OControllers pl news) w n (exec (OControllers pl news) (w, sl)).
Proof.
  intros HI Hal. inversion Hal as [| | | | | |? ? hs ha fs vs Hp Hn| | | | | | | | | | | | | | |]; subst. pose proof HI as (Hbl & _ & Hrep & _).
  destruct (resolve_ok w sl σ n pl _ _ HI Hp) as (a & s0 & v0 & E & Hwf & Ho & Hah & Hst & Hput).
  cbn [exec]. unfold call. step E. cbn [fst snd].
  destruct (try_set_layout_controllers fs a (fun _ => false) news w) as [r w'|w'|u] eqn:Ex; cbn [fst snd step_res].
  - destruct (try_set_obj hs ha fs w a vs _ news r w' Hwf Ho Hn Ex) as (vs' & Ho' & Hsh & Hb & Evs & Hze & Hr & Hlog & Hout).
    assert (Hm : same_outside (w_mem w) (w_mem w') a (vsize (TRec KStruct hs ha fs) (VRec vs))).
    { intros x Hx. apply Hout. intros off f Hin. pose proof Hwf as ((_ & _ & _ & Hh & _) & _).
      destruct (Hh off f (ctrl_in_head fs off f Hin)) as (_ & H & _).
      pose proof (head_size_le (TRec KStruct hs ha fs) (VRec vs) Hwf (proj1 Ho)) as Hle. cbn [head_size] in Hle. lia. }
    destruct (Hput w' (VRec vs') Hb Hm Ho' ltac:(cbn [vshape]; now rewrite Hsh)) as (v1 & Ep & Hr1 & Hb1).
    assert (HI' : Inv w' sl (replace_nth σ (place_handle pl) v1) n).
    { apply (inv_inplace w sl σ n w' _ s0 v0 v1); auto. eapply storage_untouched; eauto. }
    exists (put_place σ pl (VRec vs')), (ctrl_drops (ctrl_types fs) (if r then vctrls fs vs else news)).
    split; [|split; [exact Hlog|rewrite Ep; exact HI']].
    destruct r; subst vs'.
    + eapply A_controllers; [exact Hp|exact Hze|]. now apply Hr.
    + assert (Es : put_place σ pl (VRec vs) = σ).
      { clear -Hp. assert (Hps : forall p t v t' v', subval t v p = Some (t', v') -> putsub v p v' = v).
        { induction p as [| |p IH|j p IH]; intros t v t' v' H; cbn [subval putsub] in *; try congruence.
          - destruct t; try discriminate. destruct v; try discriminate. f_equal. eapply IH; eauto.
          - destruct t as [| | |kd1 hs1 ha1 fs1]; try discriminate. destruct v as [| | |us1]; try discriminate.
            destruct (varlen_field fs1 j) as [t0|]; try discriminate. destruct (nth_error us1 j) as [u|] eqn:Eu; try discriminate.
            f_equal. rewrite (IH _ _ _ _ H). now apply replace_same. }
        destruct pl as [h p|h k p|h u o p]; cbn [at_place put_place] in *.
        - destruct (nth_error σ h) as [[t v|t v|t c us old|]|] eqn:Eh; try discriminate; rewrite (Hps _ _ _ _ _ Hp); now apply replace_same.
        - destruct (nth_error σ h) as [[t v|t v|t c us old|]|] eqn:Eh; try discriminate. destruct (nth_error us k) as [v|] eqn:Ek; try discriminate.
          rewrite (Hps _ _ _ _ _ Hp), (replace_same us k v Ek). now apply replace_same.
        - destruct (nth_error σ h) as [[t v|t v|t c us old|]|] eqn:Eh; try discriminate. destruct (u || c)%bool; [|discriminate].
          destruct (index_of o _) as [k|]; [|discriminate]. destruct (nth_error us k) as [v|] eqn:Ek; try discriminate.
          rewrite (Hps _ _ _ _ _ Hp), (replace_same us k v Ek). now apply replace_same. }
      rewrite Es. eapply A_controllers_mismatch; [exact Hp|exact Hze|]. rewrite <- Hr. discriminate.
  - destruct (try_set_cases hs ha fs w a vs (fun _ => false) news Hwf Ho Hn) as [[Hze E1]|[(Hze & Hns & E1)|(Hze & Hs & w1 & k & Hk & Hr & Hout & Hb & Ha & Ht & HE)]].
    + rewrite Ex in E1. injection E1 as ->. exists σ, (ctrl_drops (ctrl_types fs) news).
      split; [eapply A_controllers_panic; eauto|]. split; [reflexivity|]. now apply inv_log.
    + rewrite Ex in E1. discriminate.
    + destruct HE as [(-> & E1 & El)|((old & _ & Hx) & E1 & _)]; [rewrite Ex in E1|]; discriminate.
  - destruct (try_set_cases hs ha fs w a vs (fun _ => false) news Hwf Ho Hn) as [[Hze E1]|[(Hze & Hns & E1)|(Hze & Hs & w1 & k & Hk & Hr & Hout & Hb & Ha & Ht & HE)]].
    + rewrite Ex in E1. discriminate.
    + rewrite Ex in E1. discriminate.
    + destruct HE as [(-> & E1 & El)|(Hlt & E1 & Hx)]; rewrite Ex in E1; discriminate.
Qed.
Lemma step_drain w sl σ n h : Inv w sl σ n -> allowed σ (ODrain h) -> step_res σ (ODrain h) w n (exec (ODrain h) (w, sl)).
Proof.
  intros HI Hal. inversion Hal as [| | | | | | |? t chk vs old Hh| | | | | | | | | | | | | |]; subst. pose proof HI as (Hbl & _).
  destruct (seq_slot w sl σ n h t chk vs old HI Hh) as (s & Hah & Hwf & Hz & Hat & Hbits).
  destruct (take_elems_ok w t chk s vs Hwf Hbl Hat) as (w1 & it & E1 & (S1 & S2 & S3 & S4 & S5) & Hit & _ & Hat1).
  set (s' := mkS (s_ptr s) 0 0 (s_cap s)) in *.
  cbn [exec]. rewrite (proj1 Hah). unfold call_seq. rewrite (bind_ok _ _ _ _ _ E1).
  rewrite (lft_ok _ _ s' _ _ (owned_elems_drop_ok w1 t it vs Hwf Hit)). cbn [fst snd step_res]. set (w2 := add_log w1 _).
  eexists _, _. split; [|split].
  2:{ unfold w2. cbn [add_log w_log]. rewrite S5. reflexivity. }
  - rewrite drops_map. unfold all_drops. apply A_drain. exact Hh.
  - change (update sl h (SSeq t chk s')) with (update (kill sl []) h (SSeq t chk s')).
    change (replace_nth σ h) with (replace_nth (kill_vals σ []) h).
    assert (Hb1 : forall vs' old', hbases (SSeq t chk s) (ASeq t chk vs' old') = seq_base s) by (intros; apply hbases_seq; eauto).
    assert (Hb2 : forall vs' old', hbases (SSeq t chk s') (ASeq t chk vs' old') = seq_base s) by (intros; rewrite (hbases_seq t chk s') by eauto; reflexivity).
    apply (inv_change w sl σ n w2 [] [] h (SSeq t chk s) (ASeq t chk vs old)); auto.
    + unfold w2. cbn [add_log w_blocks]. now rewrite S2.
    + intros b Hb _. unfold w2. cbn [add_log w_blocks w_mem]. rewrite S2. auto.
    + cbn [rep]. split; [auto|]. split; [apply Hat1|]. intros Hc H0 o Ho Hoc. split; [intros []|]. intros Hbit. right.
      assert (Hbw : bit_at w t s o = true) by (unfold bit_at, w2 in *; cbn [add_log w_mem s' s_ptr s_cap] in Hbit; now rewrite S1 in Hbit).
      rewrite !in_app_iff. destruct (N.eq_dec o (s_occ s)) as [->|Hne]; [right; right; left; symmetry; apply Hat|].
      destruct (proj2 (Hbits Hc H0 o Ho Hne) Hbw); tauto.
    + intros b Hb _. rewrite Hb1, Hb2, app_nil_r. destruct (in_dec N.eq_dec (b_base b) (seq_base s)); [auto|right].
      unfold w2 in Hb. cbn [add_log w_blocks] in Hb. rewrite S2 in Hb. auto.
Qed.
Lemma step_read w sl σ n pl : Inv w sl σ n -> allowed σ (ORead pl) -> step_res σ (ORead pl) w n (exec (ORead pl) (w, sl)).
Proof.
  intros HI Hal. inversion Hal as [| | | | | | | |? t v Hp| | | | | | | | | | | | |]; subst.
  destruct (resolve_ok w sl σ n pl t v HI Hp) as (a & s0 & v0 & E & Hwf & Ho & _).
  cbn [exec]. unfold call. step E. cbn [fst snd]. rewrite (view_ok t w a v Hwf Ho). cbn [fst snd step_res].
  exists σ, []. split; [eapply A_read; eauto|]. split; [now rewrite app_nil_r|exact HI].
Qed.
Lemma step_read_seq w sl σ n h : Inv w sl σ n -> allowed σ (OReadSeq h) -> step_res σ (OReadSeq h) w n (exec (OReadSeq h) (w, sl)).
Proof.
  intros HI Hal. inversion Hal as [| | | | | | | | |? t chk vs old Hh| | | | | | | | | | | |]; subst.
  destruct (seq_slot w sl σ n h t chk vs old HI Hh) as (s & Hah & Hwf & Hz & Hat & Hbits).
  cbn [exec]. rewrite (proj1 Hah). unfold call. rewrite (seq_contents_ok w t chk s vs Hwf (proj1 HI) Hat). cbn [fst snd step_res].
  exists σ, []. split; [eapply A_read_seq; eauto|]. split; [now rewrite app_nil_r|exact HI].
Qed.
Lemma step_lookup w sl σ n h o : Inv w sl σ n -> allowed σ (OLookup h o) -> step_res σ (OLookup h o) w n (exec (OLookup h o) (w, sl)).
Proof.
  intros HI Hal. inversion Hal as [| | | | | | | | | |? ? t vs old Hh Hold| | | | | | | | | | |]; subst. pose proof HI as (Hbl & _).
  destruct (seq_slot w sl σ n h t true vs old HI Hh) as (s & Hah & Hwf & Hz & Hat & Hbits).
  cbn [exec]. rewrite (proj1 Hah). unfold call.
  destruct (from_offset_within w t s vs old o Hwf Hz Hbl Hat (Hbits eq_refl) Hold) as [[Hin E]|[Hni E]].
  - step E. destruct (starts_nth t vs o Hin) as (k & v & K1 & K2 & K3).
    destruct (seq_iter_at _ _ _ _ _ Hwf Hbl Hat) as (_ & _ & Hobjs). cbn [seq_iter it_ptr] in Hobjs.
    pose proof (objs_nth w t (s_ptr s) vs k v Hobjs K2) as Ho. rewrite <- K3 in Ho.
    rewrite (view_ok t w _ v Hwf Ho). cbn [fst snd step_res]. exists σ, []. split; [eapply A_lookup; eauto|]. split; [now rewrite app_nil_r|exact HI].
  - rewrite (bind_panic _ _ _ _ E). cbn [step_res]. exists σ, []. split; [eapply A_lookup_miss; eauto|]. split; [now rewrite app_nil_r|exact HI].
Qed.
Lemma step_len w sl σ n h : Inv w sl σ n -> allowed σ (OLen h) -> step_res σ (OLen h) w n (exec (OLen h) (w, sl)).
Proof.
  intros HI Hal. inversion Hal as [| | | | | | | | | | |? t chk vs old Hh| | | | | | | | | |]; subst.
  destruct (seq_slot w sl σ n h t chk vs old HI Hh) as (s & Hah & Hwf & Hz & Hat & Hbits).
  cbn [exec]. rewrite (proj1 Hah). cbn [step_res]. unfold seq_len. rewrite (proj1 Hat).
  exists σ, []. split; [eapply A_len; eauto|]. split; [now rewrite app_nil_r|exact HI].
Qed.
Lemma step_offset w sl σ n h : Inv w sl σ n -> allowed σ (OOffset h) -> step_res σ (OOffset h) w n (exec (OOffset h) (w, sl)).
Proof.
  intros HI Hal. inversion Hal as [| | | | | | | | | | | |? t chk vs old Hh | | | | | | | | |]; subst.
  destruct (seq_slot w sl σ n h t chk vs old HI Hh) as (s & Hah & Hwf & Hz & Hat & Hbits).
  cbn [exec]. rewrite (proj1 Hah). cbn [step_res]. unfold seq_offset. rewrite (proj1 (proj2 Hat)).
  exists σ, []. split; [eapply A_offset; eauto|]. split; [now rewrite app_nil_r|exact HI].
Qed.
(** A type has no part of the same type. *)
Fixpoint ty_size (t : vty) : nat :=
  match t with
  | TFixed _ | TArray _ _ => 1
  | TNew t => S (ty_size t)
  | TRec _ _ _ fs => S (fs_size fs)
  end
with fs_size (fs : flds) : nat :=
  match fs with
  | FNil => 0
  | FNormal _ _ r | FLength _ _ r | FArr _ _ r => fs_size r
  | FVar t r => ty_size t + fs_size r
  end.
Lemma field_size : forall fs j t, varlen_field fs j = Some t -> (ty_size t <= fs_size fs)%nat.
Proof.
  induction fs as [|off f r IH|off f r IH|t0 r IH|f lf r IH]; intros [|j] t H; cbn [varlen_field fs_size] in *; try discriminate; try (apply IH in H; lia).
  injection H as ->. lia.
Qed.
Lemma subval_size : forall p t v t' v', subval t v p = Some (t', v') -> p = PHere \/ (ty_size t' < ty_size t)%nat.
Proof.
  induction p as [|i|p IH|j p IH]; intros t v t' v' H; cbn [subval] in H; [auto|discriminate| |]; right.
  - destruct t; try discriminate. destruct v; try discriminate. cbn [ty_size]. destruct (IH _ _ _ _ H) as [->|Hlt]; [|lia].
    cbn [subval] in H. injection H as <- <-. lia.
  - destruct t as [| | |kd hs ha fs]; try discriminate. destruct v; try discriminate. destruct (varlen_field fs j) as [t1|] eqn:E; [|discriminate].
    apply field_size in E. destruct (nth_error vs j); [|discriminate]. cbn [ty_size]. destruct (IH _ _ _ _ H) as [->|Hlt]; [|lia].
    cbn [subval] in H. injection H as <- <-. lia.
Qed.
Lemma subval_same p t v v' : subval t v p = Some (t, v') -> p = PHere.
Proof. intros H. destruct (subval_size _ _ _ _ _ H); [auto|lia]. Qed.
Lemma step_offset_of w sl σ n h pl : Inv w sl σ n -> allowed σ (OOffsetOf h pl) -> step_res σ (OOffsetOf h pl) w n (exec (OOffsetOf h pl) (w, sl)).
Proof.
  intros HI Hal. inversion Hal as [| | | | | | | | | | | | |? ? t chk vs old v Hh Hp | | | | | | | |]; subst. pose proof HI as (Hbl & _).
  destruct (seq_slot w sl σ n h t chk vs old HI Hh) as (s & Hah & Hwf & Hz & Hat & Hbits).
  cbn [exec]. rewrite (proj1 Hah). unfold call.
  assert (Hown : forall k o pl', nth_error (starts t vs 0) k = Some o -> (pl' = PlElem h k PHere \/ exists u, pl' = PlOff h u o PHere) ->
      resolve sl pl' w = Ok (t, s_ptr s + o * sp_align t) w ->
      step_res σ (OOffsetOf h pl') w n (match (r <- resolve sl pl' ;; offset_of t s (snd r)) w with
         | Ok a w' => Ok (OutNum a) (w', sl) | Panic w' => Panic (w', sl) | UB u => UB u end)).
  { intros k o pl' Hk Hpl E. step E. cbn [snd]. rewrite (offset_of_in w t chk s vs o Hwf Hz Hbl Hat (nth_error_In _ _ Hk)). cbn [step_res].
    exists σ, []. split; [eapply A_offset_of; eauto|]. split; [now rewrite app_nil_r|exact HI]. }
  destruct (Nat.eq_dec (place_handle pl) h) as [Eh|Hne].
  - destruct pl as [h' p|h' k p|h' u o p]; cbn [place_handle] in Eh; subst h'; cbn [at_place] in Hp; rewrite Hh in Hp; [discriminate| |].
    + destruct (nth_error vs k) as [v0|] eqn:Ek; [|discriminate]. pose proof (subval_same _ _ _ _ Hp) as ->.
      assert (Hk : nth_error (starts t vs 0) k = Some (total t (firstn k vs))).
      { clear -Ek. change (total t (firstn k vs)) with (0 + total t (firstn k vs)). generalize 0 at 1 2 as b. revert k Ek.
        induction vs as [|x vs IH]; intros [|k] Ek b; cbn [nth_error starts firstn total] in *; try discriminate; [f_equal; lia|].
        rewrite (IH k Ek). f_equal. lia. }
      apply (Hown k _ _ Hk (or_introl eq_refl)). cbn [resolve]. rewrite (proj1 Hah). step (collect_addrs t chk w s vs Hwf Hbl Hat).
      rewrite (nth_addrs t (s_ptr s) vs k v0 Ek). destruct t; reflexivity.
    + destruct (u || chk)%bool eqn:Eu; [|discriminate]. destruct (index_of o (starts t vs 0)) as [k|] eqn:Eo; [|discriminate]. apply index_of_nth in Eo.
      destruct (nth_error vs k) as [v0|] eqn:Ek; [|discriminate]. pose proof (subval_same _ _ _ _ Hp) as ->.
      apply (Hown k o _ Eo); [right; eauto|]. cbn [resolve]. rewrite (proj1 Hah).
      step (lookup_ok w t chk s vs old u o k Hwf Hz Hbl Hat Hbits Eu Eo). destruct t; reflexivity.
  - destruct (resolve_ok w sl σ n pl t v HI Hp) as (a & s0 & v0 & E & _ & Ho & Hah0 & Hst & _). step E. cbn [snd].
    pose proof Ho as (Hv & (_ & _ & HaW & _) & _). pose proof (Hz v Hv) as Hpos.
    assert (Hout : a < s_ptr s \/ s_ptr s + s_occ s * sp_align t <= a).
    { destruct (N.eq_dec (s_occ s) 0) as [E0|E0]; [rewrite E0; lia|].
      pose proof Hat as (A1 & A2 & A3 & A4). destruct A4 as [[[B1 _] _]|(B1 & B2 & _)]; [lia|].
      assert (Hap : apart a (vsize t v) (s_ptr s) (s_occ s * sp_align t)).
      { apply (apart_bases w sl σ n (place_handle pl) h s0 v0 (SSeq t chk s) (ASeq t chk vs old)); auto. right. cbn [hblocks].
        destruct (N.eqb_spec (s_cap s) 0); [lia|]. eexists. split; [left; reflexivity|]. cbn [seq_block b_base b_size]. unfold storage_bytes. nia. }
      pose proof (sp_align_pos t Hwf). unfold apart in Hap. nia. }
    rewrite (offset_of_out w t chk s vs a Hwf Hbl Hat); [|lia|exact Hout]. cbn [step_res].
    exists σ, []. split; [now apply A_offset_of_foreign|]. split; [now rewrite app_nil_r|exact HI].
Qed.
Lemma step_offset_valid w sl σ n h o : Inv w sl σ n -> allowed σ (OOffsetValid h o) -> step_res σ (OOffsetValid h o) w n (exec (OOffsetValid h o) (w, sl)).
Proof.
  intros HI Hal. inversion Hal as [| | | | | | | | | | | | | |? ? t vs old Hh Hold | | | | | | |]; subst. pose proof HI as (Hbl & _).
  destruct (seq_slot w sl σ n h t true vs old HI Hh) as (s & Hah & Hwf & Hz & Hat & Hbits).
  cbn [exec]. rewrite (proj1 Hah). unfold call. pose proof (is_offset_valid_bit w t s vs o Hwf Hbl Hat) as Ev.
  rewrite Ev. cbn [fst snd step_res].
  exists σ, []. split; [|split; [now rewrite app_nil_r|exact HI]]. eapply A_offset_valid; [exact Hh|].
  assert (Hst : forall x, In x (starts t vs 0) -> x < s_occ s).
  { intros x Hx. pose proof Hat as (A1 & A2 & A3 & A4). rewrite A2.
    assert (Hv : Forall (vok t) vs) by (destruct A4 as [[_ ->]|(_ & _ & _ & _ & He & _)]; [constructor|eapply elems_vok, He]).
    pose proof (starts_lt t vs 0 x Hwf Hz Hv Hx). lia. }
  destruct (N.leb_spec (s_occ s) o) as [Hle|Hlt]; [split; [discriminate|intros Hin; specialize (Hst o Hin); lia]|].
  assert (Hr : 0 < s_cap s /\ o < 8 * bitmap_bytes (s_cap s) /\ o <> s_occ s).
  { destruct Hat as (_ & _ & A3 & _). destruct (bitmap_cover (s_cap s)). lia. }
  destruct Hr as (R1 & R2 & R3). destruct (Hbits eq_refl R1 o R2 R3) as [B1 B2]. split; [|exact B1].
  intros Hb. destruct (B2 Hb); auto.
Qed.
Lemma step_capacity w sl σ n h : Inv w sl σ n -> allowed σ (OCapacity h) -> step_res σ (OCapacity h) w n (exec (OCapacity h) (w, sl)).
Proof.
  intros HI Hal. inversion Hal as [| | | | | | | | | | | | | | |? t chk vs old Hh | | | | | |]; subst.
  destruct (seq_slot w sl σ n h t chk vs old HI Hh) as (s & Hah & Hwf & Hz & Hat & Hbits).
  cbn [exec]. rewrite (proj1 Hah). cbn [step_res]. unfold seq_capacity.
  exists σ, []. split; [eapply A_capacity; [exact Hh|]|split; [now rewrite app_nil_r|exact HI]].
  destruct Hat as (_ & <- & H & _). exact H.
Qed.
Lemma step_read_first w sl σ n h m : Inv w sl σ n -> allowed σ (OReadFirst h m) -> step_res σ (OReadFirst h m) w n (exec (OReadFirst h m) (w, sl)).
Proof.
  intros HI Hal. inversion Hal as [| | | | | | | | | | | | | | | |? ? t chk vs old Hh | | | | |]; subst. pose proof HI as (Hbl & _).
  destruct (seq_slot w sl σ n h t chk vs old HI Hh) as (s & Hah & Hwf & Hz & Hat & Hbits).
  cbn [exec]. rewrite (proj1 Hah). unfold call.
  assert (Hit : iter_at w t (limited_to (seq_iter s) m) (firstn (N.to_nat m) vs)).
  { destruct (seq_iter_at _ _ _ _ _ Hwf Hbl Hat) as (I1 & I2 & I3). cbn [limited_to seq_iter it_ptr it_len] in *. split; [|split].
    - cbn [limited_to seq_iter it_ptr it_len]. rewrite I1. unfold len. rewrite firstn_length. lia.
    - cbn [limited_to seq_iter it_ptr it_len]. pose proof (total_firstn t vs (N.to_nat m)). nia.
    - cbn [limited_to seq_iter it_ptr it_len]. now apply objs_firstn. }
  rewrite (bind_ok _ _ w (addrs t (s_ptr s) (firstn (N.to_nat m) vs)) w).
  2:{ apply (iter_collect_ok w t (limited_to (seq_iter s) m)); auto. rewrite (proj1 Hit). unfold len. lia. }
  rewrite (mapM_view w t (s_ptr s) _ Hwf (proj2 (proj2 Hit))). cbn [fst snd step_res].
  exists σ, []. split; [eapply A_read_first; eauto|]. split; [now rewrite app_nil_r|exact HI].
Qed.
Lemma hbases_len s v : (length (hbases s v) <= 1)%nat.
Proof.
  unfold hbases. rewrite map_length. destruct s, v; cbn [hblocks]; try (cbn; lia).
  - destruct (_ =? 0); cbn; lia.
  - destruct (_ =? 0); cbn; lia.
Qed.
Lemma step_forget w sl σ n h : Inv w sl σ n -> allowed σ (OForget h) -> step_res σ (OForget h) w n (exec (OForget h) (w, sl)).
Proof.
  intros HI Hal. inversion Hal as [| | | | | | | | | | | | | | | | |? v Hh Hnd | | | |]; subst.
  destruct (at_h_vals w sl σ n h _ HI Hh) as (s & Hah & Hrep). cbn [exec]. rewrite (proj1 Hah).
  assert (E : match s with SDead => UB UType | _ => Ok OutUnit (w, kill sl [h]) end = Ok OutUnit (w, kill sl [h])).
  { destruct s, v; cbn [rep] in Hrep; try contradiction; try reflexivity. }
  assert (G : step_res σ (OForget h) w n (Ok OutUnit (w, kill sl [h]))).
  { cbn [step_res]. exists (kill_vals σ [h]), []. split; [apply A_forget|]. split; [now rewrite app_nil_r|].
    apply (inv_step w sl σ n w _ _ (S n) [] h (hbases s v) HI).
    - apply HI.
    - apply untouched_refl.
    - apply kill_lens, HI.
    - intros h' s' v' Ha. destruct (at_h_kill _ _ _ _ _ _ Ha) as [[Ha0 _]|(_ & -> & ->)]; [left; split; [exact Ha0|intros x _ []]|].
      right. split; [exact I|left; reflexivity].
    - pose proof (hbases_len s v). lia.
    - intros b Hb Hheap. destruct (in_dec N.eq_dec (b_base b) (hbases s v)) as [Hi|Hn]; [left; exact Hi|]. right. right. split; [exact Hb|].
      intros h' s' v' Ha Hx. apply at_h_keep; [exact Ha|]. intros [->|[]]. destruct (at_h_fun _ _ _ _ _ _ _ Ha Hah) as [-> ->]. contradiction. }
  destruct s; [exact G|exact G|exact G|discriminate E].
Qed.
(** Starting to take elements; the sequence is empty from then on. *)
Lemma take_start w sl σ n h t chk vs old : Inv w sl σ n -> nth_error σ h = Some (ASeq t chk vs old) ->
  exists s s' w1 it lo hi, nth_error sl h = Some (SSeq t chk s) /\ wf_ty t /\ take_elems t chk (w, s) = Ok it (w1, s') /\
    taken w1 t lo hi it vs [] [] /\
    forall w2 d, took w1 w2 lo hi d ->
     Inv w2 (update sl h (SSeq t chk s')) (replace_nth σ h (ASeq t chk [] (old ++ starts t vs 0 ++ [total t vs]))) n /\
     exists evs, w_log w2 = w_log w ++ evs /\ evs = map EDrop d.
Proof.
  intros HI Hh. pose proof HI as (Hbl & _).
  destruct (seq_slot w sl σ n h t chk vs old HI Hh) as (s & Hah & Hwf & Hz & Hat & Hbits).
  destruct (take_elems_ok w t chk s vs Hwf Hbl Hat) as (w1 & it & E1 & (S1 & S2 & S3 & S4 & S5) & Hit & Eit & Hat1).
  set (s' := mkS (s_ptr s) 0 0 (s_cap s)) in *. set (lo := s_ptr s). set (hi := s_ptr s + s_occ s * sp_align t).
  assert (HT : taken w1 t lo hi it vs [] []).
  { split; [exact Hit|]. rewrite Eit. cbn [seq_iter it_ptr]. split; [unfold lo; lia|]. split; [unfold hi; rewrite (proj1 (proj2 Hat)); lia|].
    split; [constructor|]. intros i j a b v _ Ha. destruct i; discriminate. }
  exists s, s', w1, it, lo, hi. split; [apply Hah|]. split; [exact Hwf|]. split; [exact E1|]. split; [exact HT|].
  intros w2 d (T1 & T2 & evs & T3 & T4). split; [|exists evs; split; [now rewrite T3, S5|exact T4]].
  change (update sl h (SSeq t chk s')) with (update (kill sl []) h (SSeq t chk s')).
  change (replace_nth σ h) with (replace_nth (kill_vals σ []) h).
  assert (Hb1 : forall vs' old', hbases (SSeq t chk s) (ASeq t chk vs' old') = seq_base s) by (intros; apply hbases_seq; eauto).
  assert (Hb2 : forall vs' old', hbases (SSeq t chk s') (ASeq t chk vs' old') = seq_base s) by (intros; rewrite (hbases_seq t chk s') by eauto; reflexivity).
  assert (Hend : hi <= s_ptr s + s_cap s * sp_align t) by (unfold hi; destruct Hat as (_ & _ & A3 & _); nia).
  assert (Hmem : forall x, ~ (lo <= x < hi) -> w_mem w2 x = w_mem w x) by (intros x Hx; rewrite T2 by lia; apply S1).
  assert (Hstore : s_cap s <> 0 \/ hi = lo).
  { destruct Hat as (_ & _ & A3 & [[[B1 _] _]|(B1 & _)]); [right; unfold hi, lo; assert (s_occ s = 0) as -> by lia; lia|left; lia]. }
  apply (inv_change w sl σ n w2 [] [] h (SSeq t chk s) (ASeq t chk vs old)); auto.
  + now rewrite T1, S2.
  + intros b Hb Hn. rewrite T1, S2. split; [exact Hb|]. intros x Hx. apply Hmem. intros Hin. rewrite Hb1, app_nil_r in Hn.
    destruct Hstore as [Hc|Hc]; [|lia]. unfold seq_base in Hn. destruct (N.eqb_spec (s_cap s) 0); [contradiction|].
    destruct Hat as (_ & _ & A3 & [[[B1 _] _]|(B1 & B2 & _)]); [lia|].
    assert (Hne : b_base (seq_block t chk s) <> b_base b) by (intros X; apply Hn; left; exact X).
    pose proof (wf_blocks_disj _ _ _ Hbl B2 Hb Hne) as Hd. unfold blocks_apart in Hd. cbn [seq_block b_base b_size] in Hd. unfold storage_bytes in Hd.
    fold lo in Hd, Hend. lia.
  + cbn [rep]. split; [auto|]. split.
    * pose proof Hat1 as (C1 & C2 & C3 & C4). split; [exact C1|]. split; [exact C2|]. split; [exact C3|].
      destruct C4 as [C4|(D1 & D2 & D3 & D4 & D5 & D6)]; [left; exact C4|right]. rewrite T1. split; [exact D1|]. split; [exact D2|]. split; [exact D3|]. split; [exact D4|].
      split; [exact D5|]. intros Hc j Hj. destruct (D6 Hc j Hj) as (b & Hb & Hb'). exists b. split; [|exact Hb'].
      rewrite <- Hb. cbn [s' s_ptr s_cap]. rewrite T2 by (fold lo in Hend |- *; lia). reflexivity.
    * intros Hc H0 o Ho Hoc. split; [intros []|]. intros Hbit. right.
      assert (Hbw : bit_at w t s o = true).
      { unfold bit_at in *. cbn [s' s_ptr s_cap] in Hbit. now rewrite Hmem in Hbit by (fold lo in Hend |- *; lia). }
      rewrite !in_app_iff. destruct (N.eq_dec o (s_occ s)) as [->|Hne]; [right; right; left; symmetry; apply Hat|].
      destruct (proj2 (Hbits Hc H0 o Ho Hne) Hbw); tauto.
  + intros b Hb _. rewrite Hb1, Hb2, app_nil_r. destruct (in_dec N.eq_dec (b_base b) (seq_base s)); [auto|right].
    rewrite T1, S2 in Hb. auto.
Qed.
Lemma step_take w sl σ n h cmds keep : Inv w sl σ n -> allowed σ (OTake h cmds keep) -> step_res σ (OTake h cmds keep) w n (exec (OTake h cmds keep) (w, sl)).
Proof.
  intros HI Hal. inversion Hal as [| | | | | | | | | | | | | | | | | |? ? ? t chk vs old Hh Hok| | |]; subst.
  destruct (take_start w sl σ n h t chk vs old HI Hh) as (s & s' & w1 & it & lo & hi & Hs & Hwf & E1 & HT & Hfin).
  pose proof (take_cmds_ok t lo hi Hwf cmds w1 it vs [] [] HT) as HR.
  cbn [exec]. rewrite Hs. unfold call_seq. rewrite (bind_ok _ _ _ _ _ E1). unfold lft, take_run.
  destruct (mapM (take_cmd t) cmds (w1, (it, []))) as [outs [w2 [it2 l2]]|[w2 [it2 l2]]|u] eqn:Em;
    destruct (take_eval t cmds vs []) as [outs' rest hd d|rest hd d|] eqn:Ev; cbn [take_res] in HR; try contradiction; try congruence.
  - destruct HR as (-> & HT2 & Tk). destruct (take_end_ok t lo hi keep w2 it2 rest l2 hd Hwf HT2) as (w3 & E3 & Tk3).
    rewrite (bind_ok _ _ _ _ _ E3). cbn [ret fst snd step_res]. destruct (Hfin w3 _ (took_trans _ _ _ _ _ _ _ Tk Tk3)) as (HI' & evs & L & Dd).
    eexists _, evs. split; [|split; [exact L|exact HI']]. rewrite Dd, drops_map. eapply A_take; eauto.
  - destruct HR as (HT2 & Tk). destruct (take_end_ok t lo hi false w2 it2 rest l2 hd Hwf HT2) as (w3 & E3 & Tk3).
    rewrite (bind_ok _ _ _ _ _ E3). cbn [panic fst snd step_res]. destruct (Hfin w3 _ (took_trans _ _ _ _ _ _ _ Tk Tk3)) as (HI' & evs & L & Dd).
    eexists _, evs. split; [|split; [exact L|exact HI']]. rewrite Dd, drops_map. eapply A_take_panic; eauto.
Qed.
(** ** swapping *)
Lemma inv_put w sl σ n pl t v a w' v2 : Inv w sl σ n -> at_place σ pl = Some (t, v) -> resolve sl pl w = Ok (t, a) w ->
  w_blocks w' = w_blocks w -> same_outside (w_mem w) (w_mem w') a (vsize t v) -> obj_at w' t a v2 -> vshape v2 = vshape v ->
  Inv w' sl (put_place σ pl v2) n.
Proof.
  intros HI Hp Hr Hb Hm Ho Hs. pose proof HI as (Hbl & _ & Hrep & _).
  destruct (resolve_ok w sl σ n pl t v HI Hp) as (a0 & s0 & v0 & E & Hwf & _ & Hah & Hst & Hput). rewrite Hr in E. injection E as <-.
  destruct (Hput w' v2 Hb Hm Ho Hs) as (v1 & Ep & Hr1 & Hb1). rewrite Ep. apply (inv_inplace w sl σ n w' _ s0 v0 v1); auto. eapply storage_untouched; eauto.
Qed.
Lemma wr_in m a bs x : a <= x < a + len bs -> wr m a bs x = nth (N.to_nat (x - a)) bs Un.
Proof. intros H. unfold wr. destruct (N.leb_spec a x), (N.ltb_spec x (a + len bs)); cbn [andb]; auto; lia. Qed.
(** A leaf of an object: where it is, reading it, overwriting it. *)
Lemma leaf_at t w a v p f : wf_ty t -> obj_at w t a v -> mut_leaf t p = Some f ->
  match leaf v p with
  | None => locate t a p w = Panic w
  | Some x => exists o, locate t a p w = Ok (a + o, f) w /\ load (a + o) (f_size f) (f_align f) w = Ok x w /\ len x = f_size f /\
      forall new, len new = f_size f -> exists w', store (a + o) (f_align f) new w = Ok tt w' /\ w_blocks w' = w_blocks w /\ w_log w' = w_log w /\
        same_outside (w_mem w) (w_mem w') a (vsize t v) /\ obj_at w' t a (put v p new) /\ vshape (put v p new) = vshape v
  end.
Proof.
  intros Hwf Ho Hm. pose proof (proj1 locate_all t Hwf w a v p f Ho Hm) as H. unfold loc_ok in H. destruct (leaf v p) as [x|]; [|exact H].
  destruct H as (o & E & A1 & A2 & A3 & A4 & A5). destruct Ho as (Hv & (P0 & Pm & PW & Pl) & Hr).
  assert (Hl : live (w_blocks w) (a + o) (f_size f)) by (eapply live_sub; eauto).
  exists o. split; [exact E|]. split; [unfold load; step (check_ref_ok w (a + o) (f_size f) (f_align f) ltac:(lia) A3 Hl); now rewrite A4|].
  split; [rewrite <- A4; apply len_rd|]. intros new Hn. eexists. split; [apply store_ok; auto; try lia; now rewrite Hn|]. split; [reflexivity|]. split; [reflexivity|].
  destruct (A5 new Hn) as (B1 & B2 & B3). split; [|split; [|exact B2]].
  - intros y Hy. cbn [set_mem w_mem]. apply wr_out. lia.
  - split; [exact B1|]. unfold vsize. rewrite B2. split; [repeat split; auto|exact B3].
Qed.
Lemma step_swap w sl σ n pl q q' : Inv w sl σ n -> allowed σ (OSwap pl q q') -> step_res σ (OSwap pl q q') w n (exec (OSwap pl q q') (w, sl)).
Proof.
  intros HI Hal. inversion Hal as [| | | | | | | | | | | | | | | | | | |? ? ? t v f Hp Hm Hm'| |]; subst.
  destruct (resolve_ok w sl σ n pl t v HI Hp) as (a & s0 & v0 & E & Hwf & Ho & _ & _ & _).
  cbn [exec]. unfold call. step E. cbn [fst snd]. unfold swap_leaves.
  pose proof (leaf_at t w a v q f Hwf Ho Hm) as H1. pose proof (leaf_at t w a v q' f Hwf Ho Hm') as H2.
  destruct (leaf v q) as [x|] eqn:El; [|rewrite (bind_panic _ _ _ _ H1); cbn [step_res]; exists σ, []; split; [eapply A_swap_range; eauto|]; split; [now rewrite app_nil_r|exact HI]].
  destruct H1 as (o & E1 & L1 & Nx & S1). step E1.
  destruct (leaf v q') as [y|] eqn:El'; [|rewrite (bind_panic _ _ _ _ H2); cbn [step_res]; exists σ, []; split; [eapply A_swap_range; eauto|]; split; [now rewrite app_nil_r|exact HI]].
  destruct H2 as (o' & E2 & L2 & Ny & S2). step E2. cbn [fst snd]. unfold mem_swap. step L1. step L2.
  destruct (S1 y Ny) as (w1 & W1 & B1 & G1 & M1 & O1 & Sh1). step W1.
  pose proof (locate_same t w w1 a v (put v q y) q' _ Hwf B1 Ho O1 Sh1 E2) as E3.
  pose proof (leaf_at t w1 a (put v q y) q' f Hwf O1 Hm') as H3. destruct (leaf (put v q y) q') as [z|]; [|rewrite E3 in H3; discriminate].
  destruct H3 as (o3 & E4 & _ & _ & S3). rewrite E3 in E4. injection E4 as E4. rewrite <- E4 in S3. destruct (S3 x Nx) as (w2 & W2 & B2 & G2 & M2 & O2 & Sh2).
  rewrite W2. cbn [fst snd step_res]. exists (put_place σ pl (put (put v q y) q' x)), []. split; [eapply A_swap; eauto|]. split; [now rewrite G2, G1, app_nil_r|].
  apply (inv_put w sl σ n pl t v a w2 _ HI Hp E); [congruence| |exact O2|congruence].
  intros z0 Hz. rewrite M2, M1 by (unfold vsize in *; rewrite ?Sh1; exact Hz). reflexivity.
Qed.
Lemma step_swap2 w sl σ n pl q pl' q' : Inv w sl σ n -> allowed σ (OSwap2 pl q pl' q') -> step_res σ (OSwap2 pl q pl' q') w n (exec (OSwap2 pl q pl' q') (w, sl)).
Proof.
  intros HI Hal. inversion Hal as [| | | | | | | | | | | | | | | | | | | |? ? ? ? t v t' v' f Hp Hp' Haw Hm Hm'|]; subst.
  destruct (resolve_ok w sl σ n pl t v HI Hp) as (a & s0 & v0 & E & Hwf & Ho & _ & _ & _).
  destruct (resolve_ok w sl σ n pl' t' v' HI Hp') as (a' & s0' & v0' & E' & Hwf' & Ho' & _ & _ & _).
  cbn [exec]. unfold call. step E. step E'. cbn [fst snd]. unfold swap_leaves.
  pose proof (leaf_at t w a v q f Hwf Ho Hm) as H1. pose proof (leaf_at t' w a' v' q' f Hwf' Ho' Hm') as H2.
  destruct (leaf v q) as [x|] eqn:El; [|rewrite (bind_panic _ _ _ _ H1); cbn [step_res]; exists σ, []; split; [eapply A_swap2_range; eauto|]; split; [now rewrite app_nil_r|exact HI]].
  destruct H1 as (o & E1 & L1 & Nx & S1). step E1.
  destruct (leaf v' q') as [y|] eqn:El'; [|rewrite (bind_panic _ _ _ _ H2); cbn [step_res]; exists σ, []; split; [eapply A_swap2_range; eauto|]; split; [now rewrite app_nil_r|exact HI]].
  destruct H2 as (o' & E2 & L2 & Ny & S2). step E2. cbn [fst snd]. unfold mem_swap. step L1. step L2.
  destruct (S1 y Ny) as (w1 & W1 & B1 & G1 & M1 & O1 & Sh1). step W1.
  pose proof (inv_put w sl σ n pl t v a w1 _ HI Hp E B1 M1 O1 Sh1) as HI1.
  pose proof (put_all_same σ pl t v _ Hp Sh1) as HS. pose proof (at_place_away σ pl pl' t v t' v' _ Hp Sh1 Hp' Haw) as Hp1.
  pose proof (resolve_inv_same w sl σ n w1 _ n pl' t' v' a' HI HI1 HS Hp' E') as Er1.
  destruct (resolve_ok w1 sl _ n pl' t' v' HI1 Hp1) as (a1 & s1 & v1 & Er2 & _ & Ho1 & _). rewrite Er1 in Er2. injection Er2 as <-.
  pose proof (locate_same t' w w1 a' v' v' q' _ Hwf' B1 Ho' Ho1 eq_refl E2) as E3.
  pose proof (leaf_at t' w1 a' v' q' f Hwf' Ho1 Hm') as H3. rewrite El' in H3.
  destruct H3 as (o3 & E4 & _ & _ & S3). rewrite E3 in E4. injection E4 as E4. rewrite <- E4 in S3. destruct (S3 x Nx) as (w2 & W2 & B2 & G2 & M2 & O2 & Sh2).
  rewrite W2. cbn [fst snd step_res]. eexists _, []. split; [eapply A_swap2; eauto|]. split; [now rewrite G2, G1, app_nil_r|].
  exact (inv_put w1 sl _ n pl' t' v' a' w2 _ HI1 Hp1 Er1 B2 M2 O2 Sh2).
Qed.
(** Objects of Unpin types have no tail. *)
Lemma unpin_vshape_flds U : forall fs vs vs' cs cs' pos, unpin_flds U fs = true -> vok_flds fs vs cs -> vok_flds fs vs' cs' ->
  map vshape vs = map vshape vs' /\ sp_end fs (map vshape vs) pos = pos.
Proof.
  induction fs as [|off f r IH|off f r IH|t0 r IH|f lf r IH]; intros vs vs' cs cs' pos Hu Hv Hv'; cbn [unpin_flds] in Hu; try discriminate.
  - destruct vs, vs'; try contradiction. auto.
  - destruct vs as [|[]], vs' as [|[]]; try contradiction. cbn [map vshape sp_end]. apply andb_true_iff in Hu as [_ Hu].
    destruct (IH vs vs' cs cs' pos Hu (proj2 Hv) (proj2 Hv')) as [-> E]. rewrite E. auto.
  - destruct vs as [|[]], vs' as [|[]]; try contradiction. cbn [map vshape sp_end]. apply andb_true_iff in Hu as [_ Hu].
    destruct (IH vs vs' cs cs' pos Hu (proj2 Hv) (proj2 Hv')) as [-> E]. rewrite E. auto.
Qed.
Lemma unpin_vshape U : forall t v v', unpin U t = true -> vok t v -> vok t v' -> vshape v = vshape v' /\ vsize t v = head_size t.
Proof.
  induction t as [f|f k|t IH|kd hs ha fs] using vty_ind; intros v v' Hu Hv Hv'; cbn [unpin] in Hu; try discriminate.
  - destruct v, v'; try contradiction. auto.
  - destruct v as [| |v|], v' as [| |v'|]; try contradiction. exact (IH v v' Hu Hv Hv').
  - destruct v as [| | |vs], v' as [| | |vs']; try contradiction. destruct (unpin_vshape_flds U fs vs vs' _ _ hs Hu Hv Hv') as [E1 E2].
    cbn [vshape]. rewrite E1. split; [reflexivity|]. unfold vsize. cbn [vshape sp_size head_size]. exact E2.
Qed.
Lemma step_swap_obj w sl σ n pl pl' : Inv w sl σ n -> allowed σ (OSwapObj pl pl') -> step_res σ (OSwapObj pl pl') w n (exec (OSwapObj pl pl') (w, sl)).
Proof.
  intros HI Hal. inversion Hal as [| | | | | | | | | | | | | | | | | | | | |U ? ? t v v' Hp Hp' Haw Hu]; subst.
  destruct (resolve_ok w sl σ n pl t v HI Hp) as (a & s0 & v0 & E & Hwf & Ho & _ & _ & _).
  destruct (resolve_ok w sl σ n pl' t v' HI Hp') as (a' & s0' & v0' & E' & _ & Ho' & _ & _ & _).
  destruct (unpin_vshape U t v v' Hu (proj1 Ho) (proj1 Ho')) as [Esh Esz]. destruct (unpin_vshape U t v' v Hu (proj1 Ho') (proj1 Ho)) as [_ Esz'].
  cbn [exec]. unfold call. step E. step E'. cbn [fst snd]. unfold mem_swap, load, store.
  pose proof (deref_ok t w a v Hwf Ho) as D1. pose proof (deref_ok t w a' v' Hwf Ho') as D2.
  unfold bind. rewrite D1, D2. rewrite !len_rd, D1.
  set (w1 := set_mem w (wr (w_mem w) a (rd (w_mem w) a' (head_size t)))). cbn [set_mem w_mem]. fold w1.
  assert (B1 : w_blocks w1 = w_blocks w) by reflexivity. rewrite (check_ref_same w w1 _ _ _ B1 D2).
  set (w2 := set_mem w1 (wr (w_mem w1) a' (rd (w_mem w) a (head_size t)))).
  destruct Ho as (Hv & P & Hr), Ho' as (Hv' & P' & Hr').
  assert (M1 : same_outside (w_mem w) (w_mem w1) a (vsize t v)) by (intros z Hz; apply wr_out; rewrite len_rd; lia).
  assert (O1 : obj_at w1 t a v').
  { split; [exact Hv'|]. split; [unfold vsize in *; rewrite <- Esh; exact P|]. apply (repr_shift t (w_mem w) (w_mem w1) a' a v' Hwf Hv'); [|exact Hr'].
    intros j Hj. cbn [w1 set_mem w_mem]. rewrite wr_in by (rewrite len_rd; lia). replace (a + j - a) with j by lia. apply nth_rd. lia. }
  pose proof (inv_put w sl σ n pl t v a w1 v' HI Hp E B1 M1 O1 (eq_sym Esh)) as HI1.
  pose proof (put_all_same σ pl t v v' Hp (eq_sym Esh)) as HS. pose proof (at_place_away σ pl pl' t v t v' v' Hp (eq_sym Esh) Hp' Haw) as Hp1.
  pose proof (resolve_inv_same w sl σ n w1 _ n pl' t v' a' HI HI1 HS Hp' E') as Er1.
  cbn [fst snd step_res]. eexists _, []. split; [eapply A_swap_obj; eauto|]. split; [now rewrite app_nil_r|].
  apply (inv_put w1 sl _ n pl' t v' a' w2 v HI1 Hp1 Er1 eq_refl); [intros z Hz; apply wr_out; rewrite len_rd; lia| |exact Esh].
  split; [exact Hv|]. split; [unfold vsize in *; rewrite Esh; exact P'|]. apply (repr_shift t (w_mem w) (w_mem w2) a a' v Hwf Hv); [|exact Hr].
  intros j Hj. cbn [w2 set_mem w_mem]. rewrite wr_in by (rewrite len_rd; lia). replace (a' + j - a') with j by lia. apply nth_rd. lia.
Qed.
Lemma exec_ok w sl σ n o : Inv w sl σ n -> allowed σ o -> step_res σ o w n (exec o (w, sl)).
Proof.
  intros HI. destruct o; intros Hal; [apply step_new_box|apply step_new_owned|apply step_new_seq|apply step_push|apply step_drop
    |apply step_assign|apply step_controllers|apply step_drain|apply step_read|apply step_read_seq|apply step_lookup|apply step_len|apply step_offset|apply step_offset_of|apply step_offset_valid
    |apply step_capacity|apply step_read_first|apply step_forget|apply step_take|apply step_swap|apply step_swap2|apply step_swap_obj]; auto.
Qed.

(** The functional account leaves no choice of the resulting state. *)
Lemma astep_fun σ o r σ1 d1 σ2 d2 : astep σ o r σ1 d1 -> astep σ o r σ2 d2 -> σ1 = σ2.
Proof.
  intros H1 H2.
  destruct H1; inversion H2; subst; try reflexivity;
    repeat match goal with
    | [A : den ?s ?t ?p ?i, B : den ?s ?t ?p ?j |- _] =>
        assert (i = j) by (eapply (proj1 (den_fun s)); eassumption); clear B; subst
    | [A : nth_error ?s ?h = Some _, B : nth_error ?s ?h = Some _ |- _] => rewrite A in B; injection B; intros; subst; clear B
    | [A : at_place ?s ?h = Some _, B : at_place ?s ?h = Some _ |- _] => rewrite A in B; injection B; intros; subst; clear B
    end; try congruence.
Qed.
Lemma reach_inv w sl σ n : reach w sl σ n -> Inv w sl σ n.
Proof.
  induction 1 as [w Hb|w sl σ n o r w' sl' σ' d H IH Hal E Hs|w sl σ n o w' sl' σ' d H IH Hal E Hs].
  - split; [rewrite Hb; split; [intros b []|constructor]|]. split; [reflexivity|].
    assert (Hno : forall h s v, ~ at_h [] [] h s v) by (intros [|h] s v [A _]; discriminate).
    split; [intros h s v Ha; destruct (Hno _ _ _ Ha)|]. split; [intros h h' s v s' v' x Ha; destruct (Hno _ _ _ Ha)|].
    exists []. split; [cbn; lia|]. rewrite Hb. intros b [].
  - pose proof (exec_ok w sl σ n o IH Hal) as HS. rewrite E in HS. destruct HS as (σ1 & evs & A1 & _ & A2).
    now rewrite (astep_fun _ _ _ _ _ _ _ Hs A1).
  - pose proof (exec_ok w sl σ n o IH Hal) as HS. rewrite E in HS. destruct HS as (σ1 & evs & A1 & _ & A2).
    now rewrite (astep_fun _ _ _ _ _ _ _ Hs A1).
Qed.
