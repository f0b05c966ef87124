(** ReenterCalls.v - which user code an operation calls by itself (C61). *)
From Verif Require Export Local.

Definition only_drops (evs : list event) : Prop := user_calls evs = map EDrop (drops_of evs).
Lemma user_calls_app l l' : user_calls (l ++ l') = user_calls l ++ user_calls l'.
Proof. apply filter_app. Qed.
Lemma only_nil : only_drops [].
Proof. reflexivity. Qed.
Lemma only_app l l' : only_drops l -> only_drops l' -> only_drops (l ++ l').
Proof. unfold only_drops. intros H H'. now rewrite user_calls_app, drops_app, map_app, H, H'. Qed.
Lemma only_map l : only_drops (map EDrop l).
Proof. unfold only_drops. rewrite drops_map. unfold user_calls. induction l as [|x l IH]; cbn; congruence. Qed.
Lemma only_drop_events f l : only_drops (drop_events f l).
Proof. unfold drop_events. destruct (f_drop f); [apply only_map|apply only_nil]. Qed.
Lemma only_ctrl_drops : forall fl cs, only_drops (ctrl_drops fl cs).
Proof. induction fl as [|f fl IH]; intros [|c cs]; cbn [ctrl_drops]; try apply only_nil. apply only_app; [apply only_drop_events|apply IH]. Qed.
Lemma only_none es : calls es = 0%nat -> only_drops es.
Proof.
  unfold calls, only_drops. intros H. induction es as [|e es IH]; [reflexivity|]. cbn [user_calls filter] in *. destruct e; cbn in *; try discriminate; auto.
Qed.

(** ** operations that call no user code *)
Definition grown (z w : world) : Prop := exists es, w_log w = w_log z ++ es /\ calls es = 0%nat.
Lemma grown_refl w : grown w w.
Proof. exists []. now rewrite app_nil_r. Qed.
Definition Rg (z w wv : world) : Prop := w = wv /\ grown z w.
Lemma Rg_sim {A} z (m : M world A) : (forall w, match m w with Ok _ w' | Panic w' => grown w w' | UB _ => True end) -> sim (Rg z) m.
Proof.
  intros H w wv [<- (es & L & C)]. specialize (H w). destruct (m w) as [a w'|w'|u]; [| |right; right; reflexivity].
  - destruct H as (es' & L' & C'). exists w'. split; [reflexivity|]. split; [reflexivity|]. exists (es ++ es'). rewrite L', L, app_assoc. split; [reflexivity|].
    unfold calls in *. rewrite user_calls_app, app_length. lia.
  - destruct H as (es' & L' & C'). exists w'. split; [reflexivity|]. split; [reflexivity|]. exists (es ++ es'). rewrite L', L, app_assoc. split; [reflexivity|].
    unfold calls in *. rewrite user_calls_app, app_length. lia.
Qed.
Lemma check_ref_same a n al w : match check_ref a n al w with Ok _ w' | Panic w' => w' = w | UB _ => True end.
Proof. unfold check_ref. destruct (a =? 0); [exact I|]. destruct (negb _); [exact I|]. destruct (negb _); [exact I|reflexivity]. Qed.
Ltac same_log := solve [cbn; exists []; split; [symmetry; apply app_nil_r|reflexivity]].
Ltac refs := repeat match goal with |- context [bind (check_ref ?a ?n ?al) _ ?w] =>
  pose proof (check_ref_same a n al w); unfold bind at 1; destruct (check_ref a n al w); subst; try exact I; try apply grown_refl; try same_log end.
Lemma Rg_prims z : prims (Rg z).
Proof.
  constructor; intros; apply Rg_sim; intros w.
  - pose proof (check_ref_same a n al w) as H. destruct (check_ref a n al w); subst; try exact I; apply grown_refl.
  - unfold load. refs.
  - unfold store. refs.
  - unfold copy_nonoverlapping. refs. destruct (_ || _ || _)%bool; [same_log|exact I].
  - unfold copy_bytes. refs.
  - unfold fill_zero. refs.
  - unfold dealloc. destruct (is_block _ _ _ _); [|exact I]. exists [EDealloc a size align]. split; reflexivity.
Qed.
Lemma quiet_calls o w sl r w' sl' evs : quiet o = true -> ends (exec o (w, sl)) r w' sl' -> w_log w' = w_log w ++ evs -> only_drops evs.
Proof.
  intros Hq He Hl. apply only_none. pose proof (lsim_exec (Rg w) (Rg_prims w) o w w sl Hq (conj eq_refl (grown_refl w))) as H.
  assert (G : grown w w').
  { destruct r; cbn [ends] in He; rewrite He in H; cbn [res_rel] in H; destruct H as (w1 & E & [-> G]); exact G. }
  destruct G as (es & L & C). rewrite L in Hl. apply app_inv_head in Hl. now subst.
Qed.

(** ** every operation *)
Lemma ucalls_concat ls ls' : Forall2 (fun e e' => user_calls e = user_calls e') ls ls' -> user_calls (concat ls) = user_calls (concat ls').
Proof. induction 1 as [|e e' l l' H1 H2 IH]; cbn [concat]; auto. now rewrite !user_calls_app, H1, IH. Qed.
Lemma idrop_calls :
  (forall t i, user_calls (idrop t (noaddr i)) = user_calls (idrop t i)) /\
  (forall fs is_, Forall2 (fun e e' => user_calls e = user_calls e') (idrops fs (map noaddr is_)) (idrops fs is_)).
Proof.
  apply vty_flds_ind.
  - intros f i. destruct i; try reflexivity. cbn [noaddr idrop]. now rewrite !user_calls_app.
  - intros f k i. destruct i; try reflexivity; cbn [noaddr idrop]; [now rewrite adrop_noaddr|]. now rewrite !user_calls_app.
  - intros t IH i. destruct i; try reflexivity; cbn [noaddr idrop]; [apply IH|]. now rewrite !user_calls_app.
  - intros kd hs ha fs IH i. destruct i; try reflexivity; cbn [noaddr idrop]; [apply ucalls_concat, IH|]. now rewrite !user_calls_app.
  - intros is_. destruct is_; constructor.
  - intros off f r IH [|[] l_]; cbn [map noaddr idrops]; constructor; auto.
  - intros off f r IH [|[] l_]; cbn [map noaddr idrops]; constructor; auto.
  - intros t IHt r IH [|i is_]; cbn [map idrops]; constructor; auto.
  - intros f lf r IH [|[] l_]; cbn [map noaddr idrops]; constructor; auto. now rewrite adrop_noaddr.
Qed.
Lemma unwinds_calls kd temps l l' :
  Forall2 (fun e e' => user_calls e = user_calls e') l l' -> user_calls (unwinds kd temps l) = user_calls (unwinds kd temps l').
Proof.
  intros H. destruct kd; cbn [unwinds].
  - apply ucalls_concat. now apply Forall2_rev.
  - rewrite !user_calls_app. f_equal. now apply ucalls_concat.
Qed.
Lemma irun_calls :
  (forall t i, user_calls (fst (irun t (noaddr i))) = user_calls (fst (irun t i))) /\
  (forall fs kd is_ cs temps, user_calls (fst (fruns kd fs (map noaddr is_) cs temps)) = user_calls (fst (fruns kd fs is_ cs temps))).
Proof.
  apply vty_flds_ind.
  - intros f i. destruct i; reflexivity.
  - intros f k i. destruct i; try reflexivity. cbn [noaddr irun fst]. now rewrite arun_noaddr.
  - intros t IH i. destruct i; try reflexivity; cbn [noaddr irun fst]. apply IH.
  - intros kd hs ha fs IH i. destruct i; try reflexivity; cbn [noaddr irun]. cbv zeta. cbn [fst]. rewrite ictrls_noaddr. apply IH.
  - intros kd is_ cs temps. destruct is_; reflexivity.
  - intros off f r IH kd [|[] l_] cs temps; cbn [map noaddr fruns fst]; auto; cbv zeta; cbn [fst]; apply IH.
  - intros off f r IH kd [|[] l_] cs temps; cbn [map noaddr fruns fst]; auto; cbv zeta; cbn [fst]; apply IH.
  - intros t IHt r IH kd [|i is_] cs temps; cbn [map fruns]; auto.
    assert (Es : snd (irun t (noaddr i)) = snd (irun t i)) by (rewrite !(proj1 irun_ival); apply ival_noaddr).
    specialize (IHt i). destruct (irun t (noaddr i)) as [e [v|]], (irun t i) as [e' [v'|]]; cbn [fst snd] in *; try discriminate.
    + rewrite !user_calls_app, IHt, IH. reflexivity.
    + rewrite !user_calls_app, IHt. f_equal. apply unwinds_calls, idrop_calls.
  - intros f lf r IH kd [|[] l_] cs temps; cbn [map noaddr fruns]; auto. rewrite arun_noaddr.
    destruct (arun f (lf cs) ai) as [e [xs|]]; cbn [fst]; rewrite !user_calls_app; f_equal; [apply IH|].
    apply unwinds_calls, idrop_calls.
Qed.
Lemma push_calls t chk w s i vs : wf_ty t -> nonzst t -> wf_blocks (w_blocks w) -> seq_at w t chk s vs -> push_ready w t chk s i ->
  match seq_push t chk i (w, s) with
  | Ok _ (w', _) => exists evs, w_log w' = w_log w ++ evs /\ user_calls evs = user_calls (fst (irun t i))
  | Panic (w', _) => exists evs, w_log w' = w_log w ++ evs /\ (user_calls evs = user_calls (idrop t i) \/ user_calls evs = user_calls (fst (irun t i)))
  | UB _ => False
  end.
Proof.
  intros Hwf Hz Hbl Hat Hr. pose proof (seq_push_cases t chk w s i vs Hwf Hz Hbl Hat Hr) as HP.
  unfold push_spec in HP. destruct HP as [(w1 & w' & -> & Href & U)|(Hzl & w1 & s1 & w2 & Hroom & Hneed & Hbl1 & Hat1 & Hr1 & Hmk & [Hf Hbx] & Hbits & Hat2 & HP)].
  - exists (idrop t i). split; [|auto]. rewrite (upd_log_eq _ _ _ _ _ _ U). f_equal. apply (push_refused_same _ _ _ _ _ _ Href).
  - destruct Hmk as (M1 & M2 & M3 & M4 & M5).
    assert (Hlog : exists e1, w_log w2 = w_log w ++ e1 /\ user_calls e1 = []).
    { rewrite M4. destruct Hroom as [(H & -> & ->)|(Hg & Es & G)]; [exists []; rewrite app_nil_r; auto|].
      destruct G as (G1 & G2 & G3 & G4 & G5 & G6 & G7 & G8 & G9). eexists. split; [exact G9|].
      destruct (s_cap s =? 0); reflexivity. }
    destruct Hlog as (e1 & L1 & D1). destruct (snd (irun t i)) as [v|].
    + destruct HP as (w' & -> & U & _). exists (e1 ++ fst (irun t i)). rewrite (upd_log_eq _ _ _ _ _ _ U), L1, app_assoc, user_calls_app, D1. auto.
    + destruct HP as (w' & -> & U). exists (e1 ++ fst (irun t i)). rewrite (upd_log_eq _ _ _ _ _ _ U), L1, app_assoc, user_calls_app, D1. auto.
Qed.
Lemma same_evs (w : world) (l evs evs' : list event) : l = w_log w ++ evs -> l = w_log w ++ evs' -> evs = evs'.
Proof. intros -> H. now apply app_inv_head in H. Qed.
Lemma exec_calls w sl σ n o r w' sl' evs : Inv w sl σ n -> allowed σ o -> ends (exec o (w, sl)) r w' sl' -> w_log w' = w_log w ++ evs -> own_calls σ o r evs.
Proof.
  intros HI Hal He Hl. destruct (quiet o) eqn:Hq.
  { apply K_other; [|exact (quiet_calls o w sl r w' sl' evs Hq He Hl)]. intros t p Hb. destruct Hb; discriminate. }
  pose proof HI as (Hbl & _).
  assert (Hoth : only_drops evs -> (forall t p, ~ builds σ o t p) -> own_calls σ o r evs) by (intros H1 H2; apply K_other; auto).
  destruct o as [t p|t p|t chk|h p|h|pl q new|pl news|h|pl|h|h k|h|h|h pl|h k|h|h m|h|h cmds keep|pl q q'|pl q pl' q'|pl pl']; try discriminate Hq; clear Hq.
  - inversion Hal as [? ? i0 Hwf Hden Hbo Hpos| | | | | | | | | | | | | | | | | | | | |]; subst.
    destruct (proj1 (eval_all w sl σ n HI) t p i0 Hden Hwf) as (i & E & En & Hi & Hm & Hs).
    assert (Hu : usable w t i) by (eapply (eval_ready w sl σ n t p i []); eauto).
    revert He. cbn [exec]. unfold call. step E. rewrite vbox_new_strip. subst i0.
    destruct (vbox_new t i w) as [a w1|w1|u] eqn:Ex; cbn [fst snd]; destruct r; cbn [ends]; intros He; try discriminate; injection He as <- <-; try (intros; subst).
    + destruct (vbox_new_ok t w i a w1 Hwf Hbl Hu Ex) as (v & Ev & Hat & Hsz & _ & Hw' & Hva & Hbk & Hlog & Hut).
      rewrite (same_evs _ _ _ _ Hl Hlog). eapply K_run; [constructor|exact Hden|]. rewrite (proj1 irun_calls). reflexivity.
    + destruct (vbox_new_panic t w i w1 Hwf Hbl Hu Ex) as (Hw' & Hut & [(Hf & Hlog & Hbk)|(Hf & Ev & q & Hlog & Hbk & Hva)]); rewrite (same_evs _ _ _ _ Hl Hlog).
      * eapply K_unused; [constructor|exact Hden|]. rewrite (proj1 idrop_calls). reflexivity.
      * eapply K_run; [constructor|exact Hden|]. rewrite (proj1 irun_calls). reflexivity.
  - inversion Hal as [|? ? i0 Hwf Hden Hbo| | | | | | | | | | | | | | | | | | | |]; subst.
    destruct (proj1 (eval_all w sl σ n HI) t p i0 Hden Hwf) as (i & E & En & Hi & Hm & Hs).
    assert (Hu : usable w t i) by (eapply (eval_ready w sl σ n t p i []); eauto).
    revert He. cbn [exec]. unfold call. step E. rewrite owned_new_in_strip. subst i0.
    pose proof (owned_new_in_cases t w i Hwf Hbl Hu) as HC.
    destruct (owned_new_in t i w) as [a w1|w1|u] eqn:Ex; cbn [fst snd]; [| |contradiction]; destruct r; cbn [ends]; intros He; try discriminate; injection He as <- <-; try (intros; subst).
    + destruct HC as (v & Ev & Hat & Hsz & Hw' & Hbk & Hlog & Hut & Hva & Hft).
      rewrite (same_evs _ _ _ _ Hl Hlog). eapply K_run; [constructor|exact Hden|]. rewrite (proj1 irun_calls). reflexivity.
    + destruct HC as (Hw' & Hut & Hlog & Hbk). destruct Hlog as [Hlog|(Hft & Ev & Hlog)]; rewrite (same_evs _ _ _ _ Hl Hlog).
      * eapply K_unused; [constructor|exact Hden|]. rewrite (proj1 idrop_calls). reflexivity.
      * eapply K_run; [constructor|exact Hden|]. rewrite (proj1 irun_calls). reflexivity.
  - inversion Hal as [| | |? ? t chk vs old i0 Hh Hden Hbo| | | | | | | | | | | | | | | | | |]; subst.
    destruct (seq_slot w sl σ n h t chk vs old HI Hh) as (s & Hah & Hwf & Hz & Hat & Hbits).
    destruct (proj1 (eval_all w sl σ n HI) t p i0 Hden Hwf) as (i & E & En & Hi & Hm & Hs).
    assert (Hu : push_ready w t chk s i).
    { apply (eval_ready w sl σ n t p i [h]); auto. unfold seq_bytes. destruct (N.eqb_spec (s_cap s) 0) as [E0|E0]; [left; reflexivity|right].
      exists h, (SSeq t chk s), (ASeq t chk vs old). split; [left; reflexivity|]. split; [exact Hah|]. right. cbn [hblocks].
      destruct (N.eqb_spec (s_cap s) 0); [lia|]. eexists. split; [left; reflexivity|]. cbn. lia. }
    revert He. cbn [exec]. rewrite (proj1 Hah). unfold call_seq. rewrite (bind_ok _ _ _ _ _ (lft_ok _ _ s _ _ E)). rewrite seq_push_strip. subst i0.
    pose proof (push_calls t chk w s i vs Hwf Hz Hbl Hat Hu) as HL.
    destruct (seq_push t chk i (w, s)) as [u [w1 s1]|[w1 s1]|u] eqn:Ex; cbn [fst snd]; [| |contradiction]; destruct r; cbn [ends]; intros He; try discriminate; injection He as <- <-; try (intros; subst).
    + destruct HL as (evs' & Hlog & Hc). rewrite (same_evs _ _ _ _ Hl Hlog). eapply K_run; [econstructor; eauto|exact Hden|]. rewrite (proj1 irun_calls). exact Hc.
    + destruct HL as (evs' & Hlog & [Hc|Hc]); rewrite (same_evs _ _ _ _ Hl Hlog).
      * eapply K_unused; [econstructor; eauto|exact Hden|]. rewrite (proj1 idrop_calls). exact Hc.
      * eapply K_run; [econstructor; eauto|exact Hden|]. rewrite (proj1 irun_calls). exact Hc.
  - apply Hoth; [|intros ? ? X; inversion X]. inversion Hal as [| | | |? v Hh Hnd| | | | | | | | | | | | | | | | |]; subst.
    destruct (at_h_vals w sl σ n h _ HI Hh) as (s & Hah & Hrep). revert He. cbn [exec]. rewrite (proj1 Hah).
    destruct s as [t a|t a|t c s|], v as [t' x|t' x|t' c' vs old|]; cbn [rep] in Hrep; try contradiction.
    + destruct Hrep as (<- & Hwf & Ho & Hb). unfold call. rewrite (vbox_drop_ok t w a x Hwf Ho Hb). cbn [fst snd].
      destruct r; cbn [ends]; intros He; try discriminate. injection He as <- <- <-. rewrite (same_evs _ _ _ _ Hl eq_refl). apply only_app; [apply only_map|reflexivity].
    + destruct Hrep as (<- & Hwf & Ho & Hb). unfold call. rewrite (owned_drop_ok t w a x Hwf Ho). cbn [fst snd].
      destruct r; cbn [ends]; intros He; try discriminate. injection He as <- <- <-. rewrite (same_evs _ _ _ _ Hl eq_refl). apply only_map.
    + destruct Hrep as ((<- & <- & Hwf & Hz) & Hat & Hb). unfold call_seq.
      destruct (seq_drop_ok w t c s vs Hwf Hbl Hat) as (w1 & s' & E & U). rewrite E. cbn [fst snd].
      destruct r; cbn [ends]; intros He; try discriminate. injection He as <- <- <-. rewrite (same_evs _ _ _ _ Hl (upd_log_eq _ _ _ _ _ _ U)).
      apply only_app; [apply only_map|]. unfold seq_free. destruct (s_cap s =? 0); reflexivity.
  - apply Hoth; [|intros ? ? X; inversion X]. inversion Hal as [| | | | |? ? ? t v f Hp Hml Hln| | | | | | | | | | | | | | | |]; subst.
    destruct (resolve_ok w sl σ n pl t v HI Hp) as (a & s0 & v0 & E & Hwf & Ho & Hah & Hst & Hput).
    revert He. cbn [exec]. unfold call. step E. cbn [fst snd].
    pose proof (assign_ok t w a v q f new Hwf Ho Hml Hln) as HA. destruct (leaf v q) as [b|] eqn:El.
    + destruct HA as (w1 & o & E1 & Hle & U & _ & Ho' & Hsh). rewrite E1. cbn [fst snd].
      destruct r; cbn [ends]; intros He; try discriminate. injection He as <- <- <-. rewrite (same_evs _ _ _ _ Hl (upd_log_eq _ _ _ _ _ _ U)). apply only_drop_events.
    + rewrite HA. destruct r; cbn [ends]; intros He; try discriminate. injection He as <- <-. rewrite (same_evs _ _ _ [] Hl (eq_sym (app_nil_r _))). apply only_nil.
  - apply Hoth; [|intros ? ? X; inversion X]. inversion Hal as [| | | | | |? ? hs ha fs vs Hp Hn| | | | | | | | | | | | | | |]; subst.
    destruct (resolve_ok w sl σ n pl _ _ HI Hp) as (a & s0 & v0 & E & Hwf & Ho & Hah & Hst & Hput).
    revert He. cbn [exec]. unfold call. step E. cbn [fst snd].
    destruct (try_set_layout_controllers fs a (fun _ => false) news w) as [b w1|w1|u] eqn:Ex; cbn [fst snd]; destruct r; cbn [ends]; intros He; try discriminate.
    + injection He as <- <- <-. destruct (try_set_obj hs ha fs w a vs _ news b w1 Hwf Ho Hn Ex) as (vs' & Ho' & Hsh & Hb & Evs & Hze & Hr & Hlog & Hout).
      rewrite (same_evs _ _ _ _ Hl Hlog). apply only_ctrl_drops.
    + injection He as <- <-.
      destruct (try_set_cases hs ha fs w a vs (fun _ => false) news Hwf Ho Hn) as [[Hze E1]|[(Hze & Hns & E1)|(Hze & Hs & w2 & k & Hk & Hr & Hout & Hb & Ha & Ht & HE)]].
      * rewrite Ex in E1. injection E1 as ->. rewrite (same_evs _ _ _ _ Hl eq_refl). apply only_ctrl_drops.
      * rewrite Ex in E1. discriminate.
      * destruct HE as [(-> & E1 & El)|((old & _ & Hx) & E1 & _)]; [rewrite Ex in E1|]; discriminate.
  - apply Hoth; [|intros ? ? X; inversion X]. inversion Hal as [| | | | | | |? t chk vs old Hh| | | | | | | | | | | | | |]; subst.
    destruct (seq_slot w sl σ n h t chk vs old HI Hh) as (s & Hah & Hwf & Hz & Hat & Hbits).
    destruct (take_elems_ok w t chk s vs Hwf Hbl Hat) as (w1 & it & E1 & (S1 & S2 & S3 & S4 & S5) & Hit & _ & Hat1).
    revert He. cbn [exec]. rewrite (proj1 Hah). unfold call_seq. rewrite (bind_ok _ _ _ _ _ E1).
    rewrite (lft_ok _ _ (mkS (s_ptr s) 0 0 (s_cap s)) _ _ (owned_elems_drop_ok w1 t it vs Hwf Hit)). cbn [fst snd].
    destruct r; cbn [ends]; intros He; try discriminate. injection He as <- <- <-. cbn [add_log w_log] in Hl. rewrite S5 in Hl.
    rewrite (same_evs _ _ _ _ Hl eq_refl). apply only_map.
  - apply Hoth; [|intros ? ? X; inversion X]. inversion Hal as [| | | | | | | | | | | | | | | | | |? ? ? t chk vs old Hh Hok| | |]; subst.
    destruct (take_start w sl σ n h t chk vs old HI Hh) as (s & s' & w1 & it & lo & hi & Hs & Hwf & E1 & HT & Hfin).
    pose proof (take_cmds_ok t lo hi Hwf cmds w1 it vs [] [] HT) as HR.
    revert He. cbn [exec]. rewrite Hs. unfold call_seq. rewrite (bind_ok _ _ _ _ _ E1). unfold lft, take_run.
    destruct (mapM (take_cmd t) cmds (w1, (it, []))) as [outs [w2 [it2 l2]]|[w2 [it2 l2]]|u] eqn:Em;
      destruct (take_eval t cmds vs []) as [outs' rest hd d|rest hd d|] eqn:Ev; cbn [take_res] in HR; try contradiction; try congruence.
    + destruct HR as (-> & HT2 & Tk). destruct (take_end_ok t lo hi keep w2 it2 rest l2 hd Hwf HT2) as (w3 & E3 & Tk3).
      rewrite (bind_ok _ _ _ _ _ E3). cbn [ret fst snd]. destruct (Hfin w3 _ (took_trans _ _ _ _ _ _ _ Tk Tk3)) as (HI' & evs' & L & Dd).
      destruct r; cbn [ends]; intros He; try discriminate. injection He as <- <- <-. rewrite (same_evs _ _ _ _ Hl L), Dd. apply only_map.
    + destruct HR as (HT2 & Tk). destruct (take_end_ok t lo hi false w2 it2 rest l2 hd Hwf HT2) as (w3 & E3 & Tk3).
      rewrite (bind_ok _ _ _ _ _ E3). cbn [panic fst snd]. destruct (Hfin w3 _ (took_trans _ _ _ _ _ _ _ Tk Tk3)) as (HI' & evs' & L & Dd).
      destruct r; cbn [ends]; intros He; try discriminate. injection He as <- <-. rewrite (same_evs _ _ _ _ Hl L), Dd. apply only_map.
Qed.
Lemma builds_agree σ σ' o t p : builds σ o t p -> agree (mentions o) σ σ' -> builds σ' o t p.
Proof. intros H Ha. destruct H; try constructor. econstructor. rewrite <- Ha; [eassumption|left; reflexivity]. Qed.
Lemma builds_den σ σ' o t p i : builds σ o t p -> agree (mentions o) σ σ' -> den σ t p i -> den σ' t p i.
Proof.
  intros H Ha Hd. apply (proj1 (den_agree σ σ') t p i Hd). destruct H; cbn [mentions] in Ha; auto. intros x Hx. apply Ha. right. exact Hx.
Qed.
Lemma calls_agree σ σ' o r evs : own_calls σ o r evs -> agree (mentions o) σ σ' -> own_calls σ' o r evs.
Proof.
  intros H Ha. destruct H.
  - eapply K_run; [eapply builds_agree; eauto|eapply builds_den; eauto|assumption].
  - eapply K_unused; [eapply builds_agree; eauto|eapply builds_den; eauto|assumption].
  - apply K_other; [|assumption]. intros t p Hb. apply (H t p). eapply builds_agree; [exact Hb|]. now apply agree_sym.
Qed.
