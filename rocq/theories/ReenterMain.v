(** ReenterMain.v - every operation does what it does on its own, whatever user code does meanwhile (C61). *)
From Verif Require Export ReenterSteps.

(** ** the invariant of a program, apart from protected blocks *)
Definition InvP (w : world) (sl : list slot) (σ : list aval) (n : nat) (P : list block) : Prop :=
  wf_blocks (w_blocks w) /\ length sl = length σ /\
  (forall h s v, at_h sl σ h s v -> rep w s v) /\
  (forall h h' s v s' v' x, at_h sl σ h s v -> at_h sl σ h' s' v' -> In x (hbases s v) -> In x (hbases s' v') -> h = h') /\
  incl P (w_blocks w) /\
  (forall h s v b, at_h sl σ h s v -> In b P -> ~ In (b_base b) (hbases s v)) /\
  exists L, (length L <= n)%nat /\
    forall b, In b (w_blocks w) -> b_heap b = true ->
      In b P \/ In (b_base b) L \/ exists h s v, at_h sl σ h s v /\ In (b_base b) (hbases s v).
Lemma invp_inv w sl σ n : InvP w sl σ n [] <-> Inv w sl σ n.
Proof.
  split.
  - intros (H1 & H2 & H3 & H4 & _ & _ & L & H7 & H8). repeat split; try apply H1; auto. exists L. split; [exact H7|]. intros b Hb Hh. destruct (H8 b Hb Hh) as [[]|[H|H]]; auto.
  - intros (H1 & H2 & H3 & H4 & L & H7 & H8). repeat split; try apply H1; auto; try (intros b []; fail). exists L. split; [exact H7|]. auto.
Qed.
Definition same_on (P : list block) (w w' : world) : Prop := forall b x, In b P -> b_base b <= x < b_base b + b_size b -> w_mem w' x = w_mem w x.
Definition apart_from (P P' : list block) : Prop := forall b c, In b P -> In c P' -> b_base b <> b_base c.
Lemma invp_eff ws w ws' w' sl σ n Pb : InvP w sl σ n (w_blocks ws ++ Pb) -> apart_from (w_blocks ws) Pb -> eff ws w ws' w' ->
  InvP w' sl σ n (w_blocks ws' ++ Pb) /\ apart_from (w_blocks ws') Pb /\ same_on Pb w w'.
Proof.
  intros (H1 & H2 & H3 & H4 & H5 & H6 & L & H7 & H8) Hap (E1 & E2 & E3 & E4 & _).
  assert (Hb : forall h s v x, at_h sl σ h s v -> In x (hbases s v) -> ~ In x (bases ws)).
  { intros h s v x Ha Hx Hi. destruct (bases_in _ _ Hi) as (b & Hb & <-). exact (H6 h s v b Ha (in_or_app _ _ _ (or_introl Hb)) Hx). }
  assert (HP : forall c, In c Pb -> In c (w_blocks w) /\ ~ In (b_base c) (bases ws)).
  { intros c Hc. split; [apply H5, in_or_app; auto|]. intros Hi. destruct (bases_in _ _ Hi) as (b & Hb0 & E). exact (Hap b c Hb0 Hc E). }
  assert (Hap' : apart_from (w_blocks ws') Pb).
  { intros b c Hb0 Hc E. destruct (HP c Hc) as [A1 A2]. apply A2. apply (E4 b c Hb0 A1). auto. }
  split; [|split; [exact Hap'|]].
  2:{ intros c x Hc Hx. destruct (HP c Hc) as [A1 A2]. now apply (E2 c A1 A2). }
  split; [apply E1|]. split; [exact H2|]. split; [|split; [exact H4|split; [|split]]].
  - intros h s v Ha. eapply rep_frame; [exact E2|eapply H3, Ha|]. intros x Hx. eapply Hb; eauto.
  - intros b Hb0. apply in_app_or in Hb0 as [Hb0|Hb0]; [apply (sub_in _ _ _ E1 Hb0)|]. destruct (HP b Hb0) as [A1 A2]. now apply (E2 b A1 A2).
  - intros h s v b Ha Hb0 Hx. apply in_app_or in Hb0 as [Hb0|Hb0]; [|exact (H6 h s v b Ha (in_or_app _ _ _ (or_intror Hb0)) Hx)].
    pose proof Hx as Hx0. apply in_map_iff in Hx0. destruct Hx0 as (c & E & Hc). pose proof (rep_blocks _ _ _ (H3 h s v Ha) c Hc) as Hcw.
    apply (Hb h s v (b_base c) Ha); [now rewrite E|]. apply (E4 b c Hb0 Hcw E).
  - exists L. split; [exact H7|]. intros b Hb0 Hh. destruct (E3 b Hb0) as [A|[A1 A2]]; [left; apply in_or_app; auto|].
    destruct (H8 b A1 Hh) as [A|[A|A]]; auto. apply in_app_or in A as [A|A]; [|left; apply in_or_app; auto]. exfalso. apply A2, in_bases, A.
Qed.

(** ** lists of events and of steps *)
Lemma shuffle_snoc_l {A} (l l' r : list A) x : shuffle l l' r -> shuffle (l ++ [x]) l' (r ++ [x]).
Proof. induction 1; cbn; [apply Sh_left, Sh_nil|now apply Sh_left|now apply Sh_right]. Qed.
Lemma shuffle_app_l {A} (l l' r es : list A) : shuffle l l' r -> shuffle (l ++ es) l' (r ++ es).
Proof.
  revert l r. induction es as [|x es IH]; intros l r H; [now rewrite !app_nil_r|].
  change (x :: es) with ([x] ++ es). rewrite !app_assoc. apply IH, shuffle_snoc_l, H.
Qed.
Lemma shuffle_snoc_r {A} (l l' r : list A) x : shuffle l l' r -> shuffle l (l' ++ [x]) (r ++ [x]).
Proof. induction 1; cbn; [apply Sh_right, Sh_nil|now apply Sh_left|now apply Sh_right]. Qed.
Lemma shuffle_app_r {A} (l l' r es : list A) : shuffle l l' r -> shuffle l (l' ++ es) (r ++ es).
Proof.
  revert l' r. induction es as [|x es IH]; intros l' r H; [now rewrite !app_nil_r|].
  change (x :: es) with ([x] ++ es). rewrite !app_assoc. apply IH, shuffle_snoc_r, H.
Qed.
Lemma usteps_app σ us rs σ1 ev1 n1 us' rs' σ2 ev2 n2 : usteps σ us rs σ1 ev1 n1 -> usteps σ1 us' rs' σ2 ev2 n2 ->
  usteps σ (us ++ us') (rs ++ rs') σ2 (ev1 ++ ev2) (n1 + n2).
Proof.
  intros H H'. induction H as [|σ u r σa eva na us rs σb evb nb Hu Hs IH]; [exact H'|]. cbn [app]. rewrite <- app_assoc, <- Nat.add_assoc.
  econstructor; [exact Hu|]. apply IH, H'.
Qed.
Lemma firstn_skipn_more {A} k (l : list (list A)) x r : skipn k l = x :: r -> concat (firstn (S k) l) = concat (firstn k l) ++ x /\ skipn (S k) l = r.
Proof.
  revert l. induction k as [|k IH]; intros [|y l] E; cbn [skipn firstn] in *; try discriminate.
  - injection E as -> ->. cbn. now rewrite app_nil_r.
  - destruct (IH l E) as [E1 E2]. split; [|exact E2]. change (firstn (S (S k)) (y :: l)) with (y :: firstn (S k) l). cbn [concat]. now rewrite E1, app_assoc.
Qed.
Lemma firstn_skipn_none {A} k (l : list (list A)) : skipn k l = [] -> concat (firstn (S k) l) = concat (firstn k l) /\ skipn (S k) l = [].
Proof.
  revert l. induction k as [|k IH]; intros [|y l] E; cbn [skipn firstn] in *; try discriminate; auto.
  destruct (IH l E) as [E1 E2]. split; [|exact E2]. change (firstn (S (S k)) (y :: l)) with (y :: firstn (S k) l). cbn [concat]. now rewrite E1.
Qed.

(** ** what is to be proved of an operation with user code *)
Definition upost (u : uop) (w : world) (σ : list aval) (n : nat) (P : list block) (r : outcome) (w' : world) (sl' : list slot) : Prop :=
  exists σ' evs m, ustep σ u r σ' evs m /\ InvP w' sl' σ' (n + m) P /\ same_on P w w' /\ w_log w' = w_log w ++ evs.
Definition good (u : uop) : Prop := forall w sl σ n P, InvP w sl σ n P -> uallowed σ u ->
  match exec_u u (w, sl) with
  | Ok x (w', sl') => upost u w σ n P (Done x) w' sl'
  | Panic (w', sl') => upost u w σ n P Panicked w' sl'
  | UB e => e = UNull /\ makes_box u = true
  end.
Lemma run_good us : Forall good us -> forall w sl σ n P rest, InvP w sl σ n P -> uallowed_all σ (us ++ rest) ->
  match run_actions (map exec_u us) (w, sl) with
  | Ok _ (w', sl') => exists rs σ' evs m, usteps σ us rs σ' evs m /\ InvP w' sl' σ' (n + m) P /\ same_on P w w' /\
      w_log w' = w_log w ++ evs /\ uallowed_all σ' rest
  | Panic _ => False
  | UB e => e = UNull /\ existsb makes_box us = true
  end.
Proof.
  induction 1 as [|u us Hg Hgs IH]; intros w sl σ n P rest HI Hal; cbn [map run_actions].
  - exists [], σ, [], 0%nat. rewrite Nat.add_0_r, app_nil_r. split; [constructor|]. split; [exact HI|]. split; [intros b x _ _; reflexivity|]. auto.
  - cbn [app] in Hal. inversion Hal as [|? ? ? Hu Hrest]; subst. specialize (Hg w sl σ n P HI Hu).
    assert (Hstep : forall r w' sl', upost u w σ n P r w' sl' ->
      match run_actions (map exec_u us) (w', sl') with
      | Ok _ (w'0, sl'0) => exists rs σ' evs m, usteps σ (u :: us) rs σ' evs m /\ InvP w'0 sl'0 σ' (n + m) P /\ same_on P w w'0 /\
          w_log w'0 = w_log w ++ evs /\ uallowed_all σ' rest
      | Panic _ => False
      | UB e => e = UNull /\ existsb makes_box (u :: us) = true
      end).
    { intros r w' sl' (σ1 & ev1 & m1 & S1 & I1 & M1 & L1). specialize (IH w' sl' σ1 (n + m1)%nat P rest I1 (Hrest _ _ _ _ S1)).
      destruct (run_actions (map exec_u us) (w', sl')) as [x [w2 sl2]|c|e].
      - destruct IH as (rs & σ2 & ev2 & m2 & S2 & I2 & M2 & L2 & A2). exists (r :: rs), σ2, (ev1 ++ ev2), (m1 + m2)%nat.
        split; [econstructor; eauto|]. split; [now rewrite Nat.add_assoc|]. split; [|split; [now rewrite L2, L1, app_assoc|exact A2]].
        intros b y Hb Hy. now rewrite (M2 b y Hb Hy), (M1 b y Hb Hy).
      - exact IH.
      - destruct IH as [E1 E2]. split; [exact E1|]. cbn. rewrite E2. apply orb_true_r. }
    destruct (exec_u u (w, sl)) as [x [w' sl']|[w' sl']|e]; [exact (Hstep _ _ _ Hg)|exact (Hstep _ _ _ Hg)|].
    destruct Hg as [E1 E2]. split; [exact E1|]. cbn. now rewrite E2.
Qed.

(** ** the relation between an operation on its own and with user code *)
Record ustart := mkStart { u_σ : list aval; u_n : nat; u_script : list (list uop); u_world : world; u_P : list block }.
Definition QB (st : ustart) (ws : world) (z : ustate) : Prop :=
  let '(w, sl, acts) := z in
  exists σ nu evo evu evs rs,
    sub ws w /\ InvP w sl σ (u_n st + nu) (w_blocks ws ++ u_P st) /\ apart_from (w_blocks ws) (u_P st) /\ same_on (u_P st) (u_world st) w /\
    acts = map (map exec_u) (skipn (calls evo) (u_script st)) /\
    usteps (u_σ st) (concat (firstn (calls evo) (u_script st))) rs σ evu nu /\
    uallowed_all σ (concat (skipn (calls evo) (u_script st))) /\
    w_log ws = w_log (u_world st) ++ evo /\ w_log w = w_log (u_world st) ++ evs /\ shuffle evo evu evs.
Definition EB (st : ustart) (u : ub) : Prop := u = UNull /\ existsb (existsb makes_box) (u_script st) = true.
Definition BB (u : ub) : Prop := u = UOob \/ u = UDealloc.
Lemma QB_sub st ws w sl acts : QB st ws (w, sl, acts) -> sub ws w.
Proof. intros (σ & nu & evo & evu & evs & rs & H & _). exact H. Qed.
Lemma QB_eff st ws w ws' w' sl acts : QB st ws (w, sl, acts) -> eff ws w ws' w' -> QB st ws' (w', sl, acts).
Proof.
  intros (σ & nu & evo & evu & evs & rs & H1 & H2 & H3 & H4 & H5 & H6 & H7 & H8 & H9 & H10) He.
  destruct (invp_eff _ _ _ _ _ _ _ _ H2 H3 He) as (J1 & J2 & J3). pose proof He as (K1 & _ & _ & _ & es & K2 & K3 & K4).
  assert (Ec : calls (evo ++ es) = calls evo) by (rewrite calls_app, K4; lia).
  exists σ, nu, (evo ++ es), evu, (evs ++ es), rs. rewrite Ec. repeat (split; [first [exact K1|exact J1|exact J2|exact H5|exact H6|exact H7|idtac]|]).
  - intros b x Hb Hx. rewrite (J3 b x Hb Hx). now apply (H4 b x).
  - now rewrite K2, H8, app_assoc.
  - now rewrite K3, H9, app_assoc.
  - now apply shuffle_app_l.
Qed.
Lemma sim_usame st A (m : M world A) (Q : world -> ustate -> Prop) :
  (forall sl acts, sim (fun w ws => Q ws (w, sl, acts)) m) -> usame (EB st) BB Q m (up m).
Proof.
  intros H ws [[w sl] acts] HQ. right. cbn [up]. specialize (H sl acts w ws HQ). destruct (m ws) as [a ws'|ws'|u].
  - destruct H as (w' & -> & H). eauto.
  - destruct H as (w' & -> & H). eauto.
  - unfold BB. destruct H as [->|[->|H]]; [auto|auto|]. rewrite H. auto.
Qed.
Lemma sub_kept ws w w' P : sub ws w -> wf_blocks (w_blocks w') -> incl (w_blocks ws ++ P) (w_blocks w') -> same_on (w_blocks ws ++ P) w w' -> sub ws w'.
Proof.
  intros Hs Hw Hi Hm. pose proof Hs as (A & _). split; [exact A|]. split; [exact Hw|]. intros b Hb _. split; [apply Hi, in_or_app; auto|].
  intros x Hx. rewrite (Hm b x) by (auto using in_or_app). now apply (sub_in _ _ _ Hs Hb).
Qed.
Lemma existsb_skipn {A} (f : A -> bool) k l : existsb f (skipn k l) = true -> existsb f l = true.
Proof. revert l. induction k as [|k IH]; intros [|x l]; cbn; auto. intros H. rewrite (IH _ H). apply orb_true_r. Qed.
Lemma Forall_skipn {A} (P : A -> Prop) k l : Forall P l -> Forall P (skipn k l).
Proof. revert l. induction k as [|k IH]; intros [|x l] H; cbn; auto. inversion H; auto. Qed.
Lemma QB_call st e : Forall (Forall good) (u_script st) -> user_call e = true -> usame (EB st) BB (QB st) (emit e) (call_user e).
Proof.
  intros Hg Hc ws [[w sl] acts] (σ & nu & evo & evu & evs & rs & H1 & H2 & H3 & H4 & H5 & H6 & H7 & H8 & H9 & H10).
  assert (Ec : calls (evo ++ [e]) = S (calls evo)) by (rewrite calls_app; unfold calls at 2, user_calls; cbn [filter]; rewrite Hc; cbn; lia).
  cbn [emit]. unfold call_user, bind, up, user. cbn [emit].
  assert (Hs : sub (add_log ws [e]) (add_log w [e])) by exact H1.
  assert (HI : InvP (add_log w [e]) sl σ (u_n st + nu) (w_blocks ws ++ u_P st)).
  { destruct H2 as (A1 & A2 & A3 & A4 & A5 & A6 & A7). split; [exact A1|]. split; [exact A2|]. split; [|split; [exact A4|split; [exact A5|split; [exact A6|exact A7]]]].
    intros h s v Ha. apply (rep_frame w (add_log w [e]) []); [|eapply A3, Ha|auto]. intros b Hb _. split; [exact Hb|reflexivity]. }
  destruct (skipn (calls evo) (u_script st)) as [|us rest] eqn:Es; subst acts; cbn [map].
  - right. eexists. split; [reflexivity|]. destruct (firstn_skipn_none _ _ Es) as [F1 F2].
    exists σ, nu, (evo ++ [e]), evu, (evs ++ [e]), rs. rewrite Ec, F1, F2. split; [exact Hs|]. split; [exact HI|]. split; [exact H3|]. split; [exact H4|]. split; [reflexivity|]. split; [exact H6|].
    split; [exact H7|]. cbn [add_log w_log]. rewrite H8, H9, <- !app_assoc. split; [reflexivity|]. split; [reflexivity|]. now apply shuffle_snoc_l.
  - assert (Hgu : Forall good us) by (pose proof (Forall_skipn _ (calls evo) _ Hg) as Hf; rewrite Es in Hf; inversion Hf; assumption).
    cbn [concat] in H7. pose proof (run_good us Hgu (add_log w [e]) sl σ _ _ (concat rest) HI H7) as HR.
    destruct (run_actions (map exec_u us) (add_log w [e], sl)) as [x [w' sl']|c|u]; [|contradiction|].
    + right. eexists. split; [reflexivity|]. destruct (firstn_skipn_more _ _ _ _ Es) as [F1 F2].
      destruct HR as (rs' & σ' & ev' & m & S' & I' & M' & L' & A').
      exists σ', (nu + m)%nat, (evo ++ [e]), (evu ++ ev'), ((evs ++ [e]) ++ ev'), (rs ++ rs'). rewrite Ec, F1, F2.
      split; [eapply sub_kept; [exact Hs|apply I'|apply I'|exact M']|]. split; [now rewrite Nat.add_assoc|]. split; [exact H3|]. split; [|split; [reflexivity|]].
      { intros b y Hb Hy. rewrite (M' b y) by (auto using in_or_app). now apply (H4 b y). }
      split; [eapply usteps_app; eauto|]. split; [exact A'|]. split; [cbn [add_log w_log]; now rewrite H8, app_assoc|].
      split; [rewrite L'; cbn [add_log w_log]; now rewrite H9, <- !app_assoc|]. apply shuffle_app_r. now apply shuffle_snoc_l.
    + left. exists u. split; [reflexivity|]. destruct HR as [E1 E2]. split; [exact E1|]. apply (existsb_skipn _ (calls evo)). rewrite Es. cbn. now rewrite E2.
Qed.
Lemma uctx_B st G : Forall (Forall good) (u_script st) ->
  uctx2 (EB st) BB (fun ws z => QB st ws z /\ Rw G (fst (fst z)) ws) (QB st).
Proof.
  intros Hg. constructor; [constructor|intros s t [H _]; exact H|].
  - intros A m Hm. apply sim_usame. intros sl acts. apply Hm. apply eff_prims; [intros w ws; apply QB_sub|]. intros w ws w' ws'. apply QB_eff.
  - intros e He. now apply QB_call.
  - intros A m Hm. apply sim_usame. intros sl acts. cbn [fst].
    destruct (eff_aprims G (fun w ws => QB st ws (w, sl, acts))) as [P1 P2]; [intros w ws; apply QB_sub|intros w ws w' ws'; apply QB_eff|]. now apply Hm.
Qed.
(** ** showing the hidden values again *)
Lemma astep_show σ o r σm d H : astep (kill_vals σ H) o r σm d -> (forall h, In h (mentions o) -> ~ In h H) -> (forall h, In h H -> (h < length σ)%nat) ->
  exists σ', astep σ o r σ' d /\ σm = kill_vals σ' H.
Proof.
  intros Hs Hm Hl. pose proof (kills_agree ADead H σ _ Hm) as Ha. change (kills ADead σ H) with (kill_vals σ H) in Ha.
  assert (Kl : forall ms h, In h H -> (h < length (kill_vals σ ms))%nat) by (intros ms h Hh; change (kill_vals σ ms) with (kills ADead σ ms); rewrite kills_length; auto).
  assert (K1 : forall x l, (forall h, In h H -> (h < length l)%nat) -> kill_vals (l ++ [x]) H = kill_vals l H ++ [x]) by (intros x l Hx; exact (kills_snoc ADead H l x Hx)).
  assert (K2 : forall ms, kill_vals (kill_vals σ ms) H = kill_vals (kill_vals σ H) ms) by (intros ms; exact (kills_kills ADead H σ ms)).
  assert (K3 : forall l h x, ~ In h H -> kill_vals (replace_nth l h x) H = replace_nth (kill_vals l H) h x) by (intros l h x Hn; exact (kills_update ADead H l h x Hn)).
  remember (kill_vals σ H) as σh eqn:Eh.
  destruct Hs; cbn [mentions] in *; rewrite ?agree_cons in Ha;
    repeat match goal with H0 : _ /\ _ |- _ => destruct H0 end;
    repeat match goal with H0 : nth_error σh ?h = Some _, E : nth_error σ ?h = nth_error σh ?h |- _ => rewrite <- E in H0 end;
    repeat match goal with H0 : at_place σh ?p = Some _, E : nth_error σ (place_handle ?p) = nth_error σh (place_handle ?p) |- _ =>
      rewrite (at_place_agree σ σh p E) in H0 end;
    repeat match goal with H0 : den σh ?t ?p ?i |- _ => apply (proj1 (den_agree σh σ)) in H0; [|apply agree_sym; assumption] end;
    (eexists; split; [econstructor; eassumption|]); subst σh;
    rewrite ?K3 by auto with datatypes; rewrite ?K1, ?K2 by auto; rewrite <- ?put_hide by (auto with datatypes); try reflexivity.
Qed.

(** ** what user code cannot reach stays as it is *)
Scheme ustep_mut := Minimality for ustep Sort Prop with usteps_mut := Minimality for usteps Sort Prop.
Combined Scheme ustep_both from ustep_mut, usteps_mut.
Lemma astep_length σ o r σ' d : astep σ o r σ' d -> length σ' = match r with Done _ => if creates o then S (length σ) else length σ | Panicked => length σ end.
Proof.
  assert (Hp : forall l pl v, length (put_place l pl v) = length l).
  { intros l pl v. destruct pl; cbn [put_place]; repeat match goal with |- length (match ?x with _ => _ end) = _ => destruct x end; auto; rewrite <- update_replace; apply update_length. }
  intros H. destruct H; cbn [creates]; rewrite ?app_length; cbn [length]; change (@kill_vals) with (@kills aval ADead); rewrite ?Hp, <- ?update_replace, ?update_length, ?kills_length; try reflexivity; lia.
Qed.
Lemma reachable_length σ o : length (reachable σ o) = if creates o then S (length σ) else length σ.
Proof. unfold reachable, with_room. change (@kill_vals) with (@kills aval ADead). rewrite kills_length. destruct (creates o); [rewrite app_length; cbn; lia|reflexivity]. Qed.
Lemma nth_reachable σ o h : (h < length σ)%nat -> nth_error (reachable σ o) h = if in_dec Nat.eq_dec h (mentions o) then Some ADead else nth_error σ h.
Proof.
  intros Hh. unfold reachable. change (@kill_vals) with (@kills aval ADead). rewrite nth_kills.
  assert (E : nth_error (with_room ADead o σ) h = nth_error σ h) by (unfold with_room; destruct (creates o); [now rewrite nth_error_app1|reflexivity]).
  rewrite E. destruct (in_dec _ _ _); [|reflexivity]. rewrite (nth_error_nth' σ ADead Hh). reflexivity.
Qed.
Lemma usteps_length :
  (forall σ u r σ' evs n, ustep σ u r σ' evs n -> (length σ <= length σ')%nat) /\
  (forall σ us rs σ' evs n, usteps σ us rs σ' evs n -> (length σ <= length σ')%nat).
Proof.
  apply ustep_both; intros; try lia. rewrite merge_length. match goal with H : (length (reachable _ _) <= _)%nat |- _ => rewrite reachable_length in H; destruct (creates o); lia end.
Qed.
Lemma usteps_dead :
  (forall σ u r σ' evs n, ustep σ u r σ' evs n -> uallowed σ u -> forall h, nth_error σ h = Some ADead -> nth_error σ' h = Some ADead) /\
  (forall σ us rs σ' evs n, usteps σ us rs σ' evs n -> forall rest, uallowed_all σ (us ++ rest) -> forall h, nth_error σ h = Some ADead -> nth_error σ' h = Some ADead).
Proof.
  apply ustep_both.
  - intros σ o script r σo evo rs σu evu nu evs Ha Hcl Hs IH Hsh Hal h Hh. inversion Hal as [? ? ? Ho Hall]; subst.
    assert (Hlt : (h < length σ)%nat) by (apply nth_error_Some; congruence).
    assert (Hm : ~ In h (mentions o)). { intros Hi. destruct (allowed_live σ o h Ho Hi) as (u & E & Hu). congruence. }
    assert (Hd : nth_error σu h = Some ADead).
    { apply (IH (concat (skipn (calls evo) script))); [now rewrite <- concat_app, firstn_skipn|]. rewrite nth_reachable by exact Hlt. destruct (in_dec _ _ _); [reflexivity|exact Hh]. }
    rewrite nth_merge. assert (Hlu : (h < length σu)%nat) by (apply nth_error_Some; congruence). destruct (Nat.ltb_spec h (length σu)); [|lia].
    destruct (in_dec _ _ _) as [Hi|_]; [|f_equal; now apply nth_error_nth]. exfalso. unfold own_handles in Hi. apply in_app_or in Hi as [Hi|Hi]; [contradiction|].
    destruct (creates o); [destruct Hi as [<-|[]]; lia|destruct Hi].
  - auto.
  - intros σ u r σ1 ev1 n1 us rs σ2 ev2 n2 H1 IH1 H2 IH2 rest Hal h Hh. cbn [app] in Hal. inversion Hal as [|? ? ? Hu Hr]; subst. eapply IH2; [eapply Hr; eassumption|]. now apply IH1.
Qed.

(** ** the part of the world that an operation uses *)
Definition others (o : op) (n : nat) : list nat := filter (fun h => if in_dec Nat.eq_dec h (mentions o) then false else true) (seq 0 n).
Lemma in_others o n h : In h (others o n) <-> (h < n)%nat /\ ~ In h (mentions o).
Proof. unfold others. rewrite filter_In, in_seq. destruct (in_dec _ _ _); intuition (try discriminate; try lia). Qed.
Definition obases (sl : list slot) (σ : list aval) (hs : list nat) : list N :=
  flat_map (fun h => match nth_error sl h, nth_error σ h with Some s, Some v => hbases s v | _, _ => [] end) hs.
Lemma in_obases sl σ hs x : In x (obases sl σ hs) <-> exists h s v, In h hs /\ at_h sl σ h s v /\ In x (hbases s v).
Proof.
  unfold obases. rewrite in_flat_map. split.
  - intros (h & Hh & Hx). destruct (nth_error sl h) as [s|] eqn:E1, (nth_error σ h) as [v|] eqn:E2; try contradiction. exists h, s, v. split; [exact Hh|]. split; [split; assumption|exact Hx].
  - intros (h & s & v & Hh & [E1 E2] & Hx). exists h. split; [exact Hh|]. now rewrite E1, E2.
Qed.
Definition inside (B : list N) (b : block) : bool := existsb (N.eqb (b_base b)) B.
Lemma inside_in B b : inside B b = true <-> In (b_base b) B.
Proof. unfold inside. rewrite existsb_exists. split; [intros (x & H & E); apply N.eqb_eq in E; now subst|]. intros H. exists (b_base b). split; [exact H|apply N.eqb_refl]. Qed.
Definition part (B : list N) (w : world) : world :=
  mkW (w_mem w) (filter (inside B) (w_blocks w)) (outside (map (fun b => (b, [])) (filter (fun b => negb (inside B b)) (w_blocks w))) (w_alloc w)) (w_tick w) (w_log w).
Lemma FOP_filter {A} (R : A -> A -> Prop) f l : ForallOrdPairs R l -> ForallOrdPairs R (filter f l).
Proof.
  induction 1 as [|x l Hf Hp IH]; cbn [filter]; [constructor|]. destruct (f x); [|exact IH]. constructor; [|exact IH].
  rewrite Forall_forall in *. intros y Hy. apply filter_In in Hy. apply Hf, Hy.
Qed.
Lemma part_sub B w : wf_blocks (w_blocks w) -> sub (part B w) w.
Proof.
  intros [H1 H2]. split; [split; [intros b Hb; cbn in Hb; apply filter_In in Hb; apply H1, Hb|apply FOP_filter, H2]|]. split; [split; assumption|].
  intros b Hb _. cbn in Hb. apply filter_In in Hb. split; [apply Hb|reflexivity].
Qed.
Lemma part_Rw B w : wf_blocks (w_blocks w) -> Rw (map (fun b => (b, [])) (filter (fun b => negb (inside B b)) (w_blocks w))) w (part B w).
Proof.
  intros Hw. repeat (split; [reflexivity|]). split; [exact Hw|]. split; [apply (part_sub B w Hw)|].
  assert (Em : forall l, map fst (map (fun b : block => (b, @nil block)) l) = l) by (intros l; rewrite map_map; cbn; apply map_id).
  split.
  - intros b. cbn [part w_blocks]. unfold kept. rewrite Em, !filter_In. split.
    + intros [H1 H2]. left. split; [exact H1|]. rewrite H2. cbn. intuition discriminate.
    + intros [[H1 H2]|(g & Hg & Hb)]; [split; [exact H1|]; destruct (inside B b); [reflexivity|exfalso; apply H2; auto]|].
      apply in_map_iff in Hg. destruct Hg as (c & <- & _). destruct Hb.
  - intros g Hg. apply in_map_iff in Hg. destruct Hg as (c & <- & Hc). apply filter_In in Hc. split; [apply Hc|]. intros d [].
Qed.
(** The state of the program as the operation sees it. *)
Lemma part_inv w sl σ n P o : InvP w sl σ n P ->
  Inv (part (obases sl σ (mentions o)) w) (kill sl (others o (length sl))) (kill_vals σ (others o (length sl))) 0.
Proof.
  intros (H1 & H2 & H3 & H4 & H5 & H6 & _). set (B := obases sl σ (mentions o)).
  assert (Hm : forall h s v, at_h sl σ h s v -> ~ In h (others o (length sl)) -> In h (mentions o)).
  { intros h s v [E _] Hn. destruct (in_dec Nat.eq_dec h (mentions o)) as [Hi|Hi]; [exact Hi|]. exfalso. apply Hn, in_others. split; [apply nth_error_Some; congruence|exact Hi]. }
  split; [apply (part_sub B w H1)|]. split; [now apply kill_lens|]. split; [|split].
  - intros h s v Ha. apply at_h_kill in Ha as [[Ha Hn]|(_ & -> & ->)]; [|exact I].
    apply (rep_frame w (part B w) (map b_base (filter (fun b => negb (inside B b)) (w_blocks w)))); [|now apply (H3 h)|].
    + intros b Hb Hnb. split; [|reflexivity]. cbn [part w_blocks]. apply filter_In. split; [exact Hb|].
      destruct (inside B b) eqn:E; [reflexivity|]. exfalso. apply Hnb, in_map, filter_In. now rewrite E.
    + intros x Hx Hi. apply in_map_iff in Hi. destruct Hi as (b & <- & Hb). apply filter_In in Hb as [Hb E].
      assert (Hin : inside B b = true) by (apply inside_in, in_obases; exists h, s, v; split; [eapply Hm; eauto|split; assumption]). rewrite Hin in E. discriminate.
  - intros h h' s v s' v' x Ha Ha' Hx Hx'. apply at_h_kill in Ha as [[Ha _]|(_ & -> & ->)]; [|destruct Hx]. apply at_h_kill in Ha' as [[Ha' _]|(_ & -> & ->)]; [|destruct Hx'].
    eapply H4; [exact Ha|exact Ha'|exact Hx|exact Hx'].
  - exists []. split; [cbn; lia|]. intros b Hb _. cbn [part w_blocks] in Hb. apply filter_In in Hb as [_ Hb]. right. apply inside_in, in_obases in Hb.
    destruct Hb as (h & s & v & Hh & Ha & Hx). exists h, s, v. split; [|exact Hx]. apply at_h_keep; [exact Ha|]. rewrite in_others. tauto.
Qed.
Lemma at_reachable o sl σ h s v : length sl = length σ -> at_h (kill (with_room SDead o sl) (mentions o)) (reachable σ o) h s v ->
  (at_h sl σ h s v /\ ~ In h (mentions o)) \/ (s = SDead /\ v = ADead).
Proof.
  intros Hl Ha. unfold reachable in Ha. apply at_h_kill in Ha as [[Ha Hn]|(_ & E)]; [|auto]. unfold with_room in Ha. destruct (creates o); [|auto].
  apply at_h_snoc in Ha as [Ha|(_ & E)]; auto.
Qed.
Lemma part_start w sl σ n P o script : InvP w sl σ n P -> uallowed_all (reachable σ o) (concat script) ->
  QB (mkStart (reachable σ o) n script w P) (part (obases sl σ (mentions o)) w) (w, kill (with_room SDead o sl) (mentions o), map (map exec_u) script).
Proof.
  intros HI Hal. pose proof HI as (H1 & H2 & H3 & H4 & H5 & H6 & L & H7 & H8). set (B := obases sl σ (mentions o)).
  assert (HB : forall b, In b (w_blocks (part B w)) -> In b (w_blocks w) /\ In (b_base b) B) by (intros b Hb; cbn in Hb; apply filter_In in Hb; rewrite inside_in in Hb; exact Hb).
  exists (reachable σ o), 0%nat, [], [], [], []. cbn [u_n u_script u_world u_P u_σ]. cbn [calls filter length firstn skipn concat]. rewrite !app_nil_r, Nat.add_0_r.
  split; [apply part_sub, H1|]. split; [|split; [|split; [|split; [reflexivity|split; [constructor|split; [exact Hal|split; [reflexivity|split; [reflexivity|constructor]]]]]]]].
  - split; [exact H1|]. split; [|split; [|split; [|split; [|split]]]].
    + unfold reachable. apply kill_lens. unfold with_room. destruct (creates o); [rewrite !app_length; cbn; lia|exact H2].
    + intros h s v Ha. apply at_reachable in Ha as [[Ha _]|[-> ->]]; [now apply (H3 h)|exact I|exact H2].
    + intros h h' s v s' v' x Ha Ha' Hx Hx'. apply at_reachable in Ha as [[Ha _]|[-> ->]]; [|destruct Hx|exact H2].
      apply at_reachable in Ha' as [[Ha' _]|[-> ->]]; [|destruct Hx'|exact H2]. eapply H4; [exact Ha|exact Ha'|exact Hx|exact Hx'].
    + intros b Hb. apply in_app_or in Hb as [Hb|Hb]; [apply (HB b Hb)|now apply H5].
    + intros h s v b Ha Hb Hx. apply at_reachable in Ha as [[Ha Hn]|[-> ->]]; [|destruct Hx|exact H2]. apply in_app_or in Hb as [Hb|Hb]; [|exact (H6 h s v b Ha Hb Hx)].
      destruct (HB b Hb) as [_ Hi]. apply in_obases in Hi. destruct Hi as (h' & s' & v' & Hh' & Ha' & Hx'). apply Hn.
      replace h with h'; [exact Hh'|]. eapply H4; [exact Ha'|exact Ha|exact Hx'|exact Hx].
    + exists L. split; [exact H7|]. intros b Hb Hh. destruct (H8 b Hb Hh) as [A|[A|(h & s & v & Ha & Hx)]]; [left; apply in_or_app; auto|auto|].
      destruct (in_dec Nat.eq_dec h (mentions o)) as [Hi|Hn].
      * left. apply in_or_app. left. cbn [part w_blocks]. apply filter_In. split; [exact Hb|]. apply inside_in, in_obases. exists h, s, v. auto.
      * right. right. exists h, s, v. split; [|exact Hx]. unfold reachable. apply at_h_keep; [|exact Hn]. unfold with_room. destruct (creates o); [now apply at_h_snoc_l|exact Ha].
  - intros b c Hb Hc E. destruct (HB b Hb) as [_ Hi]. apply in_obases in Hi. destruct Hi as (h & s & v & _ & Ha & Hx). rewrite E in Hx. exact (H6 h s v c Ha Hc Hx).
  - intros b x _ _. reflexivity.
Qed.

(** ** afterwards *)
Lemma merged_at hs (l l' : list slot) (m m' : list aval) h s v : length l' = length m' -> length l = length m ->
  at_h (merge SDead hs l l') (merge ADead hs m m') h s v ->
  (In h hs /\ (at_h l m h s v \/ (s = SDead /\ v = ADead))) \/ (~ In h hs /\ at_h l' m' h s v).
Proof.
  intros Hl Hl2 [H1 H2]. rewrite nth_merge in H1. rewrite nth_merge in H2. rewrite <- Hl in H2. destruct (Nat.ltb_spec h (length l')) as [Hlt|]; [|discriminate].
  destruct (in_dec Nat.eq_dec h hs) as [Hi|Hn].
  - left. split; [exact Hi|]. injection H1 as <-. injection H2 as <-. destruct (Nat.lt_ge_cases h (length l)) as [Hh|Hh].
    + left. split; apply nth_error_nth'; lia.
    + right. split; apply nth_overflow; lia.
  - right. split; [exact Hn|]. injection H1 as <-. injection H2 as <-. split; apply nth_error_nth'; lia.
Qed.
Lemma merge_at hs (l l' : list slot) (m m' : list aval) h s v : length l' = length m' -> (h < length l')%nat -> In h hs -> at_h l m h s v ->
  at_h (merge SDead hs l l') (merge ADead hs m m') h s v.
Proof.
  intros Hl Hlt Hi [H1 H2]. split; rewrite nth_merge, <- ?Hl; (destruct (Nat.ltb_spec h (length l')); [|lia]); (destruct (in_dec Nat.eq_dec h hs); [|contradiction]);
    f_equal; now apply nth_error_nth.
Qed.
Lemma merge_at' hs (l l' : list slot) (m m' : list aval) h s v : length l' = length m' -> ~ In h hs -> at_h l' m' h s v ->
  at_h (merge SDead hs l l') (merge ADead hs m m') h s v.
Proof.
  intros Hl Hi [H1 H2]. assert (Hlt : (h < length l')%nat) by (apply nth_error_Some; congruence).
  split; rewrite nth_merge, <- ?Hl; (destruct (Nat.ltb_spec h (length l')); [|lia]); (destruct (in_dec Nat.eq_dec h hs); [contradiction|]);
    f_equal; now apply nth_error_nth.
Qed.
Lemma finish w sl σ n P o script r ws' sl' w' slu acts' nl : InvP w sl σ n P -> uallowed σ (UOp o script) ->
  ends (exec o (part (obases sl σ (mentions o)) w, sl)) r ws' sl' ->
  step_ok (kill_vals σ (others o (length sl))) o (part (obases sl σ (mentions o)) w) r ws' (kill sl' (others o (length sl))) nl -> nl = lost o r ->
  QB (mkStart (reachable σ o) n script w P) ws' (w', slu, acts') ->
  upost (UOp o script) w σ n P r w' (merge SDead (own_handles o (length sl)) sl' slu).
Proof.
  intros HI Hal He (σm & evs0 & Has & Hlog & HIm) -> (σu & nu & evo & evu & evs & rs & Q1 & Q2 & Q3 & Q4 & Q5 & Q6 & Q7 & Q8 & Q9 & Q10).
  cbn [u_σ u_n u_script u_world u_P] in *. inversion Hal as [? ? ? Ho Hall]; subst. pose proof (proj1 (proj2 HI)) as Hlen.
  assert (E0 : evo = evs0) by (cbn [part w_log] in Hlog; rewrite Q8 in Hlog; now apply app_inv_head in Hlog). subst evs0.
  assert (Hcl : own_calls σ o r evo).
  { apply (calls_agree (kill_vals σ (others o (length sl)))); [|apply agree_sym, (kills_agree ADead); intros h Hh Hi; apply in_others in Hi; tauto].
    eapply (exec_calls (part (obases sl σ (mentions o)) w) (kill sl (others o (length sl))) _ 0 o r ws' (kill sl' (others o (length sl))));
      [now apply part_inv with (n := n) (P := P)| | |exact Hlog].
    - apply (allowed_agree σ); [exact Ho|]. apply (kills_agree ADead). intros h Hh Hi. apply in_others in Hi. tauto.
    - rewrite exec_hide; [|intros h Hh Hi; apply in_others in Hi; tauto|intros h Hh; apply in_others in Hh; tauto].
      destruct r; cbn [ends] in He |- *; rewrite He; reflexivity. }
  destruct (astep_show σ o r σm (drops_of evo) (others o (length sl)) Has) as (σo & Hast & ->).
  { intros h Hh Hi. apply in_others in Hi. tauto. } { intros h Hh. apply in_others in Hh. lia. }
  set (hs := own_handles o (length sl)) in *. set (oth := others o (length sl)) in *.
  assert (Hoth : forall h, In h hs -> ~ In h oth).
  { intros h Hi Hn. apply in_others in Hn as [Hn1 Hn2]. unfold hs, own_handles in Hi. apply in_app_or in Hi as [Hi|Hi]; [contradiction|]. destruct (creates o); [destruct Hi as [<-|[]]; lia|destruct Hi]. }
  destruct HIm as (M1 & M2 & M3 & M4 & L1 & M5 & M6). pose proof Q2 as (I1 & I2 & I3 & I4 & I5 & I6 & L2 & I7 & I8).
  change (kill sl' oth) with (kills SDead sl' oth) in M2; change (kill_vals σo oth) with (kills ADead σo oth) in M2. rewrite !kills_length in M2.
  pose proof (exec_length o (part (obases sl σ (mentions o)) w) sl) as Hxl.
  assert (Hsl' : length sl' = length sl \/ (creates o = true /\ length sl' = S (length sl))).
  { destruct r; cbn [ends] in He; rewrite He in Hxl; [destruct (creates o)|]; auto. }
  pose proof (proj2 usteps_length _ _ _ _ _ _ Q6) as Hul. rewrite reachable_length in Hul.
  assert (Hall' : uallowed_all (reachable σ o) (concat (firstn (calls evo) script) ++ concat (skipn (calls evo) script))) by (now rewrite <- concat_app, firstn_skipn).
  assert (Hdead : forall h, In h hs -> nth_error σu h = Some ADead).
  { intros h Hi. apply (proj2 usteps_dead _ _ _ _ _ _ Q6 _ Hall'). unfold hs, own_handles in Hi. apply in_app_or in Hi as [Hi|Hi].
    - destruct (allowed_live σ o h Ho Hi) as (u & E & _). rewrite nth_reachable by (apply nth_error_Some; congruence). destruct (in_dec _ _ _); [reflexivity|contradiction].
    - unfold reachable, with_room. change (@kill_vals) with (@kills aval ADead). rewrite nth_kills. destruct (creates o); [destruct Hi as [<-|[]]|destruct Hi].
      rewrite nth_snoc, Hlen. destruct (Nat.eq_dec _ _); [|lia]. destruct (in_dec _ _ _); reflexivity. }
  assert (Hown : forall h s v, In h hs -> at_h sl' σo h s v -> at_h (kill sl' oth) (kill_vals σo oth) h s v) by (intros; now apply at_h_keep; auto).
  exists (merge ADead hs σo σu), evs, (lost o r + nu)%nat. split; [|split; [|split; [exact Q4|exact Q9]]].
  { unfold hs. rewrite Hlen. econstructor; eassumption. }
  split; [exact I1|]. split; [now rewrite !merge_length|]. split; [|split; [|split; [|split]]].
  - intros h s v Ha. apply merged_at in Ha as [[Hi [Ha|[-> ->]]]|[Hn Ha]]; auto; [|exact I|now apply (I3 h)].
    apply (rep_frame ws' w' []); [apply Q1|apply (M3 h), Hown; auto|auto].
  - assert (Hmix : forall h h' s v s' v' x, In h hs -> at_h sl' σo h s v -> at_h slu σu h' s' v' -> In x (hbases s v) -> In x (hbases s' v') -> h = h').
    { intros h h' s v s' v' x Hi Ha Ha' Hx Hx'. exfalso. pose proof (M3 _ _ _ (Hown _ _ _ Hi Ha)) as Hr. unfold hbases in Hx. apply in_map_iff in Hx. destruct Hx as (c & <- & Hc).
      apply (I6 h' s' v' c Ha'); [|exact Hx']. apply in_or_app. left. apply (rep_blocks _ _ _ Hr), Hc. }
    intros h h' s v s' v' x Ha Ha' Hx Hx'. apply merged_at in Ha as [[Hi [Ha|[-> ->]]]|[Hn Ha]]; auto; [|destruct Hx|];
      apply merged_at in Ha' as [[Hi' [Ha'|[-> ->]]]|[Hn' Ha']]; auto; try (destruct Hx'; fail).
    + eapply M4; [apply Hown; [exact Hi|exact Ha]|apply Hown; [exact Hi'|exact Ha']|exact Hx|exact Hx'].
    + eapply Hmix; [exact Hi|exact Ha|exact Ha'|exact Hx|exact Hx'].
    + symmetry. eapply Hmix; [exact Hi'|exact Ha'|exact Ha|exact Hx'|exact Hx].
    + eapply I4; [exact Ha|exact Ha'|exact Hx|exact Hx'].
  - intros b Hb. apply I5, in_or_app. auto.
  - intros h s v b Ha Hb Hx. apply merged_at in Ha as [[Hi [Ha|[-> ->]]]|[Hn Ha]]; auto.
    + pose proof (M3 _ _ _ (Hown _ _ _ Hi Ha)) as Hr. unfold hbases in Hx. apply in_map_iff in Hx. destruct Hx as (c & E & Hc). apply (Q3 c b); [apply (rep_blocks _ _ _ Hr), Hc|exact Hb|exact E].
    + apply (I6 h s v b Ha); [apply in_or_app; auto|exact Hx].
  - exists (L1 ++ L2). split; [rewrite app_length; lia|]. intros b Hb Hh. destruct (I8 b Hb Hh) as [A|[A|(h & s & v & Ha & Hx)]].
    + apply in_app_or in A as [A|A]; [|auto]. destruct (M6 b A Hh) as [C|(h & s & v & Ha & Hx)]; [right; left; apply in_or_app; auto|].
      right. right. exists h, s, v. split; [|exact Hx]. apply at_h_kill in Ha as [[Ha Hn]|(_ & -> & ->)]; [|destruct Hx].
      assert (Hh' : (h < length sl')%nat) by (apply nth_error_Some; destruct Ha; congruence).
      apply merge_at; auto.
      * rewrite I2. destruct (creates o); [|destruct Hsl' as [?|[? ?]]; [lia|discriminate]]. destruct Hsl' as [?|[? ?]]; lia.
      * unfold hs, own_handles. apply in_or_app. destruct (in_dec Nat.eq_dec h (mentions o)) as [Hi|Hi]; [auto|]. right.
        assert (~ (h < length sl)%nat) by (intros Hc; apply Hn, in_others; auto). destruct (creates o); [left; destruct Hsl' as [?|[? ?]]; lia|destruct Hsl' as [?|[? ?]]; [lia|discriminate]].
    + right. left. apply in_or_app. auto.
    + right. right. exists h, s, v. split; [|exact Hx]. apply merge_at'; auto. intros Hi. specialize (Hdead h Hi). destruct Ha as [_ Ha]. rewrite Hdead in Ha. injection Ha as <-.
      destruct s; destruct Hx.
Qed.
Lemma good_op o script : Forall (Forall good) script -> good (UOp o script).
Proof.
  intros Hg w sl σ n P HI Hal. inversion Hal as [? ? ? Ho Hall]; subst. cbn [exec_u].
  set (B := obases sl σ (mentions o)). set (oth := others o (length sl)). pose proof (proj1 (proj2 HI)) as Hlen.
  pose proof (uctx_B (mkStart (reachable σ o) n script w P) (map (fun b => (b, [])) (filter (fun b => negb (inside B b)) (w_blocks w))) Hg) as D.
  pose proof (exec_with_sim _ _ _ _ o (part B w) w sl (map (map exec_u) script) D (conj (part_start w sl σ n P o script HI Hall) (part_Rw B w (proj1 HI)))) as HU.
  assert (Hal' : allowed (kill_vals σ oth) o).
  { apply (allowed_agree σ); [exact Ho|]. apply (kills_agree ADead). intros h Hh Hi. apply in_others in Hi. tauto. }
  pose proof (exec_ok (part B w) (kill sl oth) (kill_vals σ oth) 0 o (part_inv w sl σ n P o HI) Hal') as HS.
  rewrite exec_hide in HS; [|intros h Hh Hi; apply in_others in Hi; tauto|intros h Hh; apply in_others in Hh; tauto].
  assert (Hm : existsb (existsb makes_box) script = true -> makes_box (UOp o script) = true) by (intros E; cbn [makes_box]; destruct o; auto).
  destruct HU as [(u & -> & E1 & E2)|HU]; [split; auto|].
  destruct (exec o (part B w, sl)) as [x [ws' sl']|[ws' sl']|u] eqn:Ex; cbn [hide_res step_res] in HS.
  - destruct HU as (w' & slu & acts' & -> & HQ). eapply finish; [exact HI|exact Hal|exact Ex|exact HS|destruct o; reflexivity|exact HQ].
  - destruct HU as (w' & slu & acts' & -> & HQ). eapply finish; [exact HI|exact Hal|exact Ex|exact HS|destruct o; reflexivity|exact HQ].
  - destruct HS as [-> (t & p & i & -> & _)]. destruct HU as [[HU|HU]|HU]; [discriminate|discriminate|]. rewrite HU. split; reflexivity.
Qed.
Lemma good_all : forall u, good u.
Proof.
  fix IH 1. intros [o script]. apply good_op. induction script as [|l script IHs]; constructor; [|exact IHs].
  induction l as [|u l IHl]; constructor; [apply IH|exact IHl].
Qed.
