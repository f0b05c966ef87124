(** PropsPar.v - property C56: threads with references to different objects do not interfere. *)
From Verif Require Import ParSpec PlaceAddr PropsProgram PropsPin.

(** ** one command *)
Definition cmd_ends (x : res world out) (r : outcome) (w' : world) : Prop :=
  match r with Done o => x = Ok o w' | Panicked => x = Panic w' end.
(** The operation of a program that a command is. *)
Definition as_op (pl : place) (c : cmd) : op :=
  match c with CRead => ORead pl | CAssign q new => OAssign pl q new | CControllers news => OControllers pl news end.
Lemma exec_as_op pl c w sl t a r w' : resolve sl pl w = Ok (t, a) w -> cmd_ends (run_cmd t a c w) r w' <-> ends (exec (as_op pl c) (w, sl)) r w' sl.
Proof.
  intros E. destruct c as [|q new|news]; cbn [as_op exec run_cmd]; unfold call; rewrite (bind_ok _ _ _ _ _ E); cbn [fst snd].
  - unfold bind, ret. destruct (view t a w); destruct r; cbn; split; intros H; inversion H; reflexivity.
  - unfold bind, ret. destruct (assign t a q new w) as [[]| |]; destruct r; cbn; split; intros H; inversion H; reflexivity.
  - destruct t as [| | |[] hs ha fs]; try (destruct r; cbn; split; intros H; discriminate).
    + unfold bind, ret. destruct (try_set_layout_controllers _ _ _ _ w); destruct r; cbn; split; intros H; inversion H; reflexivity.
Qed.
Lemma run_cmd_ok t w a v c : wf_ty t -> obj_at w t a v -> cmd_ok t c ->
  exists r v' evs w', cmd_ends (run_cmd t a c w) r w' /\ cmd_step t v c r v' (drops_of evs) /\ w_log w' = w_log w ++ evs /\
    w_blocks w' = w_blocks w /\ same_outside (w_mem w) (w_mem w') a (vsize t v) /\ obj_at w' t a v' /\ vshape v' = vshape v.
Proof.
  intros Hwf Ho Hc. destruct c as [|q new|news]; cbn [cmd_ok run_cmd] in *.
  - exists (Done (OutVal v)), v, [], w. split; [cbn; now step (view_ok t w a v Hwf Ho)|]. split; [constructor|]. split; [now rewrite app_nil_r|].
    split; [reflexivity|]. split; [intros x _; reflexivity|auto].
  - destruct Hc as (f & Hm & Hl). pose proof (assign_ok t w a v q f new Hwf Ho Hm Hl) as HA. destruct (leaf v q) as [b|] eqn:El.
    + destruct HA as (w' & o & E1 & Hle & U & _ & Ho' & Hsh). exists (Done OutUnit), (put v q new), (drop_events f [b]), w'.
      pose proof (upd_blocks _ _ _ _ _ _ U) as Ub. rewrite without_nil in Ub.
      split; [cbn; now step E1|]. split.
      { replace (drops_of (drop_events f [b])) with (if f_drop f then [b] else []) by (unfold drop_events; destruct (f_drop f); reflexivity). now apply CS_assign. }
      split; [apply (upd_log_eq _ _ _ _ _ _ U)|]. split; [exact Ub|]. split; [intros x Hx; apply (upd_mem _ _ _ _ _ _ U); lia|auto].
    + exists Panicked, v, [], w. split; [cbn; now rewrite (bind_panic _ _ _ _ HA)|]. split; [now apply CS_range|]. split; [now rewrite app_nil_r|].
      split; [reflexivity|]. split; [intros x _; reflexivity|auto].
  - destruct Hc as (hs & ha & fs & -> & Hn). destruct v as [| | |vs]; try (destruct Ho as [[] _]).
    destruct (try_set_cases hs ha fs w a vs (fun _ => false) news Hwf Ho Hn) as [[Hze E1]|[(Hze & Hns & E1)|(Hze & Hs & w1 & k & Hk & Hr & Hout & Hb & Ha & Ht & HE)]].
    + exists Panicked, (VRec vs), (ctrl_drops (ctrl_types fs) news), (add_log w (ctrl_drops (ctrl_types fs) news)).
      split; [cbn; now rewrite (bind_panic _ _ _ _ E1)|]. split; [now eapply CS_length|]. repeat (split; [reflexivity|]). split; [intros x _; reflexivity|auto].
    + exists (Done (OutBool false)), (VRec vs), (ctrl_drops (ctrl_types fs) news), (add_log w (ctrl_drops (ctrl_types fs) news)).
      split; [cbn; now step E1|]. split; [now eapply CS_mismatch|]. repeat (split; [reflexivity|]). split; [intros x _; reflexivity|auto].
    + destruct HE as [(-> & E1 & El)|((old & _ & Hx) & _)]; [|discriminate].
      destruct (try_set_obj hs ha fs w a vs _ news true w1 Hwf Ho Hn E1) as (vs' & Ho' & Hsh & Hb' & -> & _ & _ & Hlog & Hout').
      exists (Done (OutBool true)), (VRec (with_ctrls fs vs news)), (ctrl_drops (ctrl_types fs) (vctrls fs vs)), w1.
      split; [cbn; now step E1|]. split; [now eapply CS_ctrl|]. split; [exact Hlog|]. split; [exact Hb|]. split; [|split; [exact Ho'|cbn [vshape]; now rewrite Hsh]].
      intros x Hx. apply Hout. intros off f Hin. pose proof Hwf as ((_ & _ & _ & Hh & _) & _).
      destruct (Hh off f (ctrl_in_head fs off f Hin)) as (_ & H & _).
      pose proof (head_size_le (TRec KStruct hs ha fs) (VRec vs) Hwf (proj1 Ho)) as Hle. cbn [head_size] in Hle. lia.
Qed.
(** ** one command in a program *)
Lemma cmd_astep σ pl t v c r v' d : at_place σ pl = Some (t, v) -> cmd_step t v c r v' d -> astep σ (as_op pl c) r (put_place σ pl v') d.
Proof.
  intros Hp H. destruct H; subst; cbn [as_op]; rewrite ?(put_self _ _ _ _ Hp); econstructor; eauto.
Qed.
Lemma cmd_allowed σ pl t v c : at_place σ pl = Some (t, v) -> vok t v -> cmd_ok t c -> allowed σ (as_op pl c).
Proof.
  intros Hp Hv Hc. destruct c as [|q new|news]; cbn [cmd_ok as_op] in *.
  - eapply L_read; eauto.
  - destruct Hc as (f & Hm & Hl). eapply L_assign; eauto.
  - destruct Hc as (hs & ha & fs & -> & Hn). destruct v; try (destruct Hv; fail). eapply L_controllers; eauto.
Qed.
Lemma place_step w sl σ n pl t v a c :
  reach w sl σ n -> at_place σ pl = Some (t, v) -> resolve sl pl w = Ok (t, a) w -> cmd_ok t c ->
  exists r v' evs w', cmd_ends (run_cmd t a c w) r w' /\ cmd_step t v c r v' (drops_of evs) /\ w_log w' = w_log w ++ evs /\
    reach w' sl (put_place σ pl v') n /\ vshape v' = vshape v.
Proof.
  intros HR Hp Hr Hc. destruct (resolve_ok w sl σ n pl t v (reach_inv _ _ _ _ HR) Hp) as (a0 & s0 & v0 & E & Hwf & Ho & _).
  rewrite Hr in E. injection E as <-. destruct (run_cmd_ok t w a v c Hwf Ho Hc) as (r & v' & evs & w' & He & Hs & Hl & _ & _ & _ & Hsh).
  exists r, v', evs, w'. repeat (split; [assumption|]). split; [|exact Hsh].
  pose proof (proj1 (exec_as_op pl c w sl t a r w' Hr) He) as He'. pose proof (cmd_allowed σ pl t v c Hp (proj1 Ho) Hc) as Hal.
  pose proof (cmd_astep σ pl t v c r v' _ Hp Hs) as HA. destruct r as [o|]; cbn [ends] in He'.
  - pose proof (R_done w sl σ n _ o w' sl _ _ HR Hal He' HA) as R. destruct c; exact R.
  - pose proof (R_panicked w sl σ n _ w' sl _ _ HR Hal He' HA) as R. destruct c; exact R.
Qed.
Lemma resolve_same w sl σ n w' σ' n' pl t v a : reach w sl σ n -> reach w' sl σ' n' -> all_same σ σ' -> at_place σ pl = Some (t, v) -> resolve sl pl w = Ok (t, a) w ->
  resolve sl pl w' = Ok (t, a) w'.
Proof.
  intros HR HR'. exact (resolve_inv_same w sl σ n w' σ' n' pl t v a (reach_inv _ _ _ _ HR) (reach_inv _ _ _ _ HR')).
Qed.
Lemma cmd_det t v c r v' d r2 v2 d2 : cmd_step t v c r v' d -> cmd_step t v c r2 v2 d2 -> r = r2 /\ v' = v2 /\ d = d2.
Proof.
  intros A B. destruct A; inversion B; subst; try congruence; try contradiction; repeat match goal with
    | H : VRec _ = VRec _ |- _ => injection H as H; subst
    | H : TRec _ _ _ _ = TRec _ _ _ _ |- _ => injection H as ? ? H; subst
    | H : mut_leaf _ _ = Some _, H' : mut_leaf _ _ = Some _ |- _ => rewrite H in H'; injection H' as H'; subst
    | H : leaf _ _ = Some _, H' : leaf _ _ = Some _ |- _ => rewrite H in H'; injection H' as H'; subst end;
    try contradiction; auto.
Qed.
(** ** footprint *)
(** A call that is given a reference to an object reads and writes bytes of that object only: whatever
    the rest of the memory holds and whatever else is allocated at the time, it has the same outcome and
    leaves the same value, it changes no byte outside the object, and allocates and frees nothing. *)
Theorem C56_footprint : forall w sl σ n pl t v a c,
  reach w sl σ n -> at_place σ pl = Some (t, v) -> resolve sl pl w = Ok (t, a) w -> cmd_ok t c ->
  exists r v' d, cmd_step t v c r v' d /\
  forall w2,
    (* the storage of the object is live in w2 and has the same contents *)
    live (w_blocks w2) a (vsize t v) -> (forall x, a <= x < a + vsize t v -> w_mem w2 x = w_mem w x) ->
    exists w3, cmd_ends (run_cmd t a c w2) r w3 /\
      obj_at w3 t a v' /\ vsize t v' = vsize t v /\
      (forall x, ~ (a <= x < a + vsize t v) -> w_mem w3 x = w_mem w2 x) /\
      w_blocks w3 = w_blocks w2 /\ exists evs, w_log w3 = w_log w2 ++ evs /\ drops_of evs = d.
Proof.
  intros w sl σ n pl t v a c HR Hp Hr Hc. destruct (resolve_ok w sl σ n pl t v (reach_inv _ _ _ _ HR) Hp) as (a0 & s0 & v0 & E & Hwf & Ho & _).
  rewrite Hr in E. injection E as <-. destruct (run_cmd_ok t w a v c Hwf Ho Hc) as (r & v' & evs & w' & _ & Hs & _).
  exists r, v', (drops_of evs). split; [exact Hs|]. intros w2 Hl Hm. destruct Ho as (Hv & (P1 & P2 & P3 & _) & Hrp).
  assert (Ho2 : obj_at w2 t a v).
  { split; [exact Hv|]. split; [repeat split; auto|]. apply (repr_shift t (w_mem w) (w_mem w2) a a v Hwf Hv); [|exact Hrp]. intros j Hj. apply Hm. lia. }
  destruct (run_cmd_ok t w2 a v c Hwf Ho2 Hc) as (r2 & v2 & evs2 & w3 & He & Hs2 & Hl2 & Hb & Hout & Ho3 & Hsh).
  destruct (cmd_det _ _ _ _ _ _ _ _ _ Hs Hs2) as (<- & <- & Ed). exists w3. split; [exact He|]. split; [exact Ho3|]. split; [unfold vsize; now rewrite Hsh|].
  split; [intros x Hx; apply Hout; lia|]. split; [exact Hb|]. exists evs2. auto.
Qed.
(** ** schedules *)
Lemma par_run_app s1 : forall s2 c, par_run (s1 ++ s2) c = (par_run s1 ;;; par_run s2) c.
Proof.
  induction s1 as [|i r IH]; intros s2 c; [reflexivity|]. cbn [app par_run]. unfold bind. destruct (par_step i c) as [x c'| |]; try reflexivity. rewrite IH. reflexivity.
Qed.
Lemma count_snoc sched i j : count_occ Nat.eq_dec (sched ++ [i]) j = if Nat.eq_dec i j then S (count_occ Nat.eq_dec sched j) else count_occ Nat.eq_dec sched j.
Proof. rewrite count_occ_app. cbn. destruct (Nat.eq_dec i j); lia. Qed.
Lemma firstn_snoc {A} (l : list A) : forall k x r, skipn k l = x :: r -> firstn (S k) l = firstn k l ++ [x] /\ skipn (S k) l = r.
Proof. induction l as [|y l IH]; intros [|k] x r H; cbn in *; try discriminate; [injection H as -> ->; auto|]. destruct (IH k x r H) as [-> ->]. auto. Qed.
Lemma firstn_done {A} (l : list A) k : skipn k l = [] -> firstn (S k) l = firstn k l /\ skipn (S k) l = [].
Proof.
  intros H. assert (length l <= k)%nat by (pose proof (skipn_length k l) as E; rewrite H in E; cbn in E; lia).
  rewrite !firstn_all2, skipn_all2 by lia. auto.
Qed.
Lemma concat_update {A} (ds : list (list A)) : forall i d e, nth_error ds i = Some d -> Permutation (concat (update ds i (d ++ e))) (concat ds ++ e).
Proof.
  induction ds as [|x r IH]; intros [|i] d e H; cbn [nth_error update concat] in *; try discriminate.
  - injection H as ->. rewrite <- !app_assoc. apply Permutation_app_head, Permutation_app_comm.
  - rewrite <- app_assoc. apply Permutation_app_head. eauto.
Qed.
Definition at_thread (σ σ' : list aval) (w : world) (sl : list slot) (m : nat) (k : task) (th : thread) (d : list (list cell)) : Prop :=
  exists t v a v', at_place σ (tk_place k) = Some (t, v) /\ resolve sl (tk_place k) w = Ok (t, a) w /\
    th_ty th = t /\ th_addr th = a /\ solo t v (firstn m (tk_cmds k)) (th_outs th) (th_dead th) v' d /\ at_place σ' (tk_place k) = Some (t, v') /\
    (th_dead th = false -> th_todo th = skipn m (tk_cmds k)).
Lemma threads_inv w sl σ n ks ths :
  reach w sl σ n -> Forall2 (spawned w sl) ks ths ->
  (forall k, In k ks -> exists t v, at_place σ (tk_place k) = Some (t, v) /\ Forall (cmd_ok t) (tk_cmds k)) -> separate σ ks ->
  forall sched, exists w' ths' σ' evs ds, par_run sched (w, ths) = Ok tt (w', ths') /\ reach w' sl σ' n /\ all_same σ σ' /\
    w_log w' = w_log w ++ evs /\ Permutation (drops_of evs) (concat ds) /\ length ths' = length ks /\ length ds = length ks /\
    (forall i k, nth_error ks i = Some k -> exists th d, nth_error ths' i = Some th /\ nth_error ds i = Some d /\ at_thread σ σ' w sl (count_occ Nat.eq_dec sched i) k th d) /\
    (forall pl t v, at_place σ pl = Some (t, v) -> (forall k, In k ks -> read_only k \/ away σ (tk_place k) pl) -> at_place σ' pl = Some (t, v)).
Proof.
  intros HR HF Hok Hsep sched. induction sched as [|i sched IH] using rev_ind.
  - exists w, ths, σ, [], (map (fun _ => []) ks). split; [reflexivity|]. split; [exact HR|]. split; [apply all_same_refl|]. split; [now rewrite app_nil_r|].
    split; [clear; induction ks as [|k ks IH]; cbn; [constructor|exact IH]|]. split; [clear -HF; induction HF; cbn; congruence|]. split; [apply map_length|].
    split; [|auto]. intros i k Hi. destruct (Hok k (nth_error_In _ _ Hi)) as (t & v & Hp & _).
    assert (exists th, nth_error ths i = Some th /\ spawned w sl k th) as (th & Hth & t1 & a & Hr & ->).
    { clear -HF Hi. revert i Hi. induction HF as [|k0 th0 ks ths H0 HF IH]; intros [|i] Hi; try discriminate; cbn [nth_error] in *; [injection Hi as ->; eauto|eauto]. }
    eexists _, []. split; [exact Hth|]. split; [rewrite nth_error_map, Hi; reflexivity|].
    destruct (C55_address w sl σ n (tk_place k) t v HR Hp) as (a' & _ & E). rewrite Hr in E. injection E as -> _.
    exists t, v, a, v. cbn [count_occ firstn skipn th_ty th_addr th_outs th_dead th_todo]. repeat (split; [auto; fail|]). split; [constructor|auto].
  - destruct IH as (w' & ths' & σ' & evs & ds & Hrun & HR' & HS & Hlog & Hperm & Hlt & Hld & Hall & Hrest).
    rewrite par_run_app. cbn [par_run]. step Hrun.
    (* nothing happens *)
    assert (Hno : par_step i (w', ths') = Ok tt (w', ths') ->
              (forall k th d, nth_error ks i = Some k -> nth_error ths' i = Some th -> nth_error ds i = Some d ->
                 at_thread σ σ' w sl (count_occ Nat.eq_dec sched i) k th d -> at_thread σ σ' w sl (S (count_occ Nat.eq_dec sched i)) k th d) ->
              exists w'' ths'' σ'' evs' ds', (par_step i;;; ret tt) (w', ths') = Ok tt (w'', ths'') /\ reach w'' sl σ'' n /\ all_same σ σ'' /\
                w_log w'' = w_log w ++ evs' /\ Permutation (drops_of evs') (concat ds') /\ length ths'' = length ks /\ length ds' = length ks /\
                (forall j k, nth_error ks j = Some k -> exists th d, nth_error ths'' j = Some th /\ nth_error ds' j = Some d /\ at_thread σ σ'' w sl (count_occ Nat.eq_dec (sched ++ [i]) j) k th d) /\
                (forall pl t v, at_place σ pl = Some (t, v) -> (forall k, In k ks -> read_only k \/ away σ (tk_place k) pl) -> at_place σ'' pl = Some (t, v))).
    { intros Es Hi. exists w', ths', σ', evs, ds. split; [now step Es|]. repeat (split; [assumption|]). split; [|exact Hrest].
      intros j k Hj. destruct (Hall j k Hj) as (th & d & H1 & H2 & H3). exists th, d. split; [exact H1|]. split; [exact H2|].
      rewrite count_snoc. destruct (Nat.eq_dec i j) as [<-|_]; [eauto|exact H3]. }
    destruct (nth_error ks i) as [k|] eqn:Ek.
    2:{ apply Hno; [|congruence]. cbn [par_step]. assert (nth_error ths' i = None) as ->; [|reflexivity]. apply nth_error_None. rewrite Hlt. now apply nth_error_None. }
    destruct (Hall i k Ek) as (th & d & Hth & Hd & t & v & a & v' & Hp & Hr & Et & Ea & Hso & Hp' & Htd).
    destruct th as [t1 a1 todo outs dead]. cbn [th_ty th_addr th_outs th_dead th_todo] in *. subst t1 a1.
    destruct dead.
    { apply Hno; [cbn [par_step]; rewrite Hth; destruct todo; reflexivity|]. intros k0 th0 d0 E1 E2 E3 H. injection E1 as <-. rewrite Hth in E2. injection E2 as <-. rewrite Hd in E3. injection E3 as <-.
      destruct H as (t2 & v2 & a2 & v2' & X1 & X2 & X3 & X4 & X5 & X6 & X7). exists t2, v2, a2, v2'. repeat (split; [assumption|]). split; [|split; [assumption|discriminate]].
      destruct (skipn (count_occ Nat.eq_dec sched i) (tk_cmds k)) as [|c r] eqn:Esk.
      - now rewrite (proj1 (firstn_done _ _ Esk)).
      - rewrite (proj1 (firstn_snoc _ _ _ _ Esk)). now apply So_dead. }
    specialize (Htd eq_refl). destruct todo as [|c rest].
    { apply Hno; [cbn [par_step]; rewrite Hth; reflexivity|]. intros k0 th0 d0 E1 E2 E3 H. injection E1 as <-. symmetry in Htd. destruct (firstn_done _ _ Htd) as [F1 F2].
      destruct H as (t2 & v2 & a2 & v2' & X1 & X2 & X3 & X4 & X5 & X6 & X7). exists t2, v2, a2, v2'. rewrite F1. repeat (split; [assumption|]).
      intros Hd0. rewrite (X7 Hd0), F2. exact Htd. }
    symmetry in Htd. destruct (firstn_snoc _ _ _ _ Htd) as [F1 F2].
    assert (Hin : In c (tk_cmds k)) by (rewrite <- (firstn_skipn (count_occ Nat.eq_dec sched i) (tk_cmds k)), Htd; apply in_or_app; right; left; reflexivity).
    assert (Hc : cmd_ok t c). { destruct (Hok k (nth_error_In _ _ Ek)) as (t2 & v2 & E2 & HF2). rewrite Hp in E2. injection E2 as <- <-. rewrite Forall_forall in HF2. auto. }
    pose proof (resolve_same w sl σ n w' σ' n (tk_place k) t v a HR HR' HS Hp Hr) as Hr'.
    destruct (place_step w' sl σ' n (tk_place k) t v' a c HR' Hp' Hr' Hc) as (r & v2 & evs2 & w2 & He & Hst & Hl2 & HR2 & Hsh).
    set (th2 := match r with Done o => mkTh t a rest (outs ++ [o]) false | Panicked => mkTh t a rest outs true end).
    pose proof (put_all_same σ' (tk_place k) t v' v2 Hp' Hsh) as HS2.
    assert (Hkeep : forall pl t0 v0, at_place σ pl = Some (t0, v0) -> read_only k \/ away σ (tk_place k) pl -> forall v1, at_place σ' pl = Some (t0, v1) -> at_place (put_place σ' (tk_place k) v2) pl = Some (t0, v1)).
    { intros pl t0 v0 Hpl Hro v1 Hpl'. destruct Hro as [Hro|Haw].
      - rewrite (Hro c Hin) in Hst. inversion Hst; subst. now rewrite (put_self _ _ _ _ Hp').
      - eapply at_place_away; [exact Hp'|exact Hsh|exact Hpl'|]. exact (away_same _ _ _ _ _ _ _ _ HS Hp Hpl Haw). }
    exists w2, (update ths' i th2), (put_place σ' (tk_place k) v2), (evs ++ evs2), (update ds i (d ++ drops_of evs2)).
    split. { unfold bind, ret. cbn [par_step]. rewrite Hth. destruct r as [o|]; cbn [cmd_ends] in He; rewrite He; reflexivity. }
    split; [exact HR2|]. split; [eapply all_same_trans; eauto|]. split; [rewrite Hl2, Hlog, app_assoc; reflexivity|].
    split. { rewrite drops_app. rewrite (concat_update ds i d _ Hd). now apply Permutation_app_tail. }
    split; [now rewrite update_length|]. split; [now rewrite update_length|]. split.
    + intros j kj Hj. destruct (Nat.eq_dec i j) as [<-|Hne].
      * rewrite Ek in Hj. injection Hj as <-. exists th2, (d ++ drops_of evs2). rewrite !nth_update, Hth, Hd. destruct (Nat.eq_dec i i) as [_|]; [|congruence]. cbn [option_map].
        split; [reflexivity|]. split; [reflexivity|]. rewrite count_snoc. destruct (Nat.eq_dec i i) as [_|]; [|congruence].
        exists t, v, a, v2. split; [exact Hp|]. split; [exact Hr|]. split; [destruct r; reflexivity|]. split; [destruct r; reflexivity|]. rewrite F1. split.
        { destruct r as [o|]; cbn [th2 th_outs th_dead]; [eapply So_done|eapply So_panic]; eauto. }
        split; [eapply at_place_put; eauto|]. intros _. rewrite F2. destruct r; reflexivity.
      * destruct (Hall j kj Hj) as (thj & dj & H1 & H2 & tj & vj & aj & vj' & X1 & X2 & X3 & X4 & X5 & X6 & X7). exists thj, dj. rewrite !nth_update.
        destruct (Nat.eq_dec i j) as [|_]; [contradiction|]. split; [exact H1|]. split; [exact H2|]. rewrite count_snoc. destruct (Nat.eq_dec i j) as [|_]; [contradiction|].
        exists tj, vj, aj, vj'. repeat (split; [assumption|]). split; [|assumption].
        apply (Hkeep (tk_place kj) tj vj X1); [|exact X6]. destruct (Hsep i j k kj Ek Hj Hne) as [?|[? _]]; auto.
    + intros pl t0 v0 Hpl Hk. apply (Hkeep pl t0 v0 Hpl (Hk k (nth_error_In _ _ Ek))). now apply Hrest.
Qed.
(** ** the property *)
(** Threads are started with references that Rust's borrow rules allow to exist together. However they
    are scheduled, there is no undefined behaviour; every thread gets the results, and leaves its object
    with the value, that it would get and leave alone; the values destroyed are those that each thread
    destroys alone; nothing else changes; and the program is in a reachable state afterwards. *)
Theorem C56_threads : forall w sl σ n ks ths sched,
  reach w sl σ n -> Forall2 (spawned w sl) ks ths ->
  (forall k, In k ks -> exists t v, at_place σ (tk_place k) = Some (t, v) /\ Forall (cmd_ok t) (tk_cmds k)) ->
  separate σ ks ->
  exists w' ths' σ' evs ds,
    par_run sched (w, ths) = Ok tt (w', ths') /\ reach w' sl σ' n /\
    length ths' = length ks /\ length ds = length ks /\
    (forall i k t v, nth_error ks i = Some k -> at_place σ (tk_place k) = Some (t, v) ->
       exists th d v', nth_error ths' i = Some th /\ nth_error ds i = Some d /\
         solo t v (firstn (count_occ Nat.eq_dec sched i) (tk_cmds k)) (th_outs th) (th_dead th) v' d /\
         at_place σ' (tk_place k) = Some (t, v')) /\
    w_log w' = w_log w ++ evs /\ Permutation (drops_of evs) (concat ds) /\
    (forall pl t v, at_place σ pl = Some (t, v) ->
       (forall k, In k ks -> read_only k \/ away σ (tk_place k) pl) -> at_place σ' pl = Some (t, v)).
Proof.
  intros w sl σ n ks ths sched HR HF Hok Hsep.
  destruct (threads_inv w sl σ n ks ths HR HF Hok Hsep sched) as (w' & ths' & σ' & evs & ds & H1 & H2 & _ & H4 & H5 & H6 & H7 & H8 & H9).
  exists w', ths', σ', evs, ds. repeat (split; [assumption|]). split; [|auto].
  intros i k t v Hi Hp. destruct (H8 i k Hi) as (th & d & X1 & X2 & t0 & v0 & a & v' & Y1 & Y2 & Y3 & Y4 & Y5 & Y6 & _).
  rewrite Hp in Y1. injection Y1 as <- <-. exists th, d, v'. auto.
Qed.
Lemma nth_ext_error {A} : forall l l' : list A, (forall i, nth_error l i = nth_error l' i) -> l = l'.
Proof.
  induction l as [|x l IH]; intros [|y l'] H; [reflexivity|discriminate (H O)|discriminate (H O)|]. pose proof (H O) as H0. cbn in H0. injection H0 as ->.
  f_equal. apply IH. intros i. exact (H (S i)).
Qed.
Lemma solo_det t v : forall cs outs dead v' d outs2 dead2 v2 d2, solo t v cs outs dead v' d -> solo t v cs outs2 dead2 v2 d2 -> outs = outs2 /\ dead = dead2 /\ v' = v2 /\ d = d2.
Proof.
  induction cs as [|c cs IH] using rev_ind; intros outs dead v' d outs2 dead2 v2 d2 A B.
  - assert (N : forall (l : list cmd) x, l ++ [x] = [] -> False) by (intros [|] ? ?; discriminate).
    inversion A; subst; try (exfalso; eapply N; eassumption). inversion B; subst; try (exfalso; eapply N; eassumption). auto.
  - assert (inv : forall o de x e, solo t v (cs ++ [c]) o de x e ->
        (exists o1 x1 e1 o2 e2, solo t v cs o1 false x1 e1 /\ cmd_step t x1 c (Done o2) x e2 /\ o = o1 ++ [o2] /\ de = false /\ e = e1 ++ e2) \/
        (exists x1 e1 e2, solo t v cs o false x1 e1 /\ cmd_step t x1 c Panicked x e2 /\ de = true /\ e = e1 ++ e2) \/
        (solo t v cs o true x e /\ de = true)).
    { intros o de x e H. inversion H as [E|cs0 o0 x0 e0 c0 o2 x2 e2 H1 H2 E|cs0 o0 x0 e0 c0 x2 e2 H1 H2 E|cs0 o0 x0 e0 c0 H1 E]; subst.
      - destruct cs; discriminate.
      - apply app_inj_tail in E as [-> ->]. left. repeat eexists; eauto.
      - apply app_inj_tail in E as [-> ->]. right; left. repeat eexists; eauto.
      - apply app_inj_tail in E as [-> ->]. auto. }
    destruct (inv _ _ _ _ A) as [(o1 & x1 & e1 & o2 & e2 & S1 & C1 & -> & -> & ->)|[(x1 & e1 & e2 & S1 & C1 & -> & ->)|(S1 & ->)]];
    destruct (inv _ _ _ _ B) as [(p1 & y1 & g1 & p2 & g2 & S2 & C2 & -> & -> & ->)|[(y1 & g1 & g2 & S2 & C2 & -> & ->)|(S2 & ->)]];
    destruct (IH _ _ _ _ _ _ _ _ S1 S2) as (? & ? & ? & ?); subst; try discriminate;
    try (destruct (cmd_det _ _ _ _ _ _ _ _ _ C1 C2) as (E1 & E2 & E3); subst; try discriminate; try (injection E1 as ->)); auto.
Qed.
(** The order in which the threads run does not matter: two schedules in which every thread runs equally
    often give every thread the same results, leave every object with the same value and destroy the
    same values. *)
Theorem C56_schedule : forall w sl σ n ks ths s1 s2,
  reach w sl σ n -> Forall2 (spawned w sl) ks ths ->
  (forall k, In k ks -> exists t v, at_place σ (tk_place k) = Some (t, v) /\ Forall (cmd_ok t) (tk_cmds k)) ->
  separate σ ks -> Permutation s1 s2 ->
  exists w1 w2 ths1 ths2 evs1 evs2,
    par_run s1 (w, ths) = Ok tt (w1, ths1) /\ par_run s2 (w, ths) = Ok tt (w2, ths2) /\
    map th_outs ths1 = map th_outs ths2 /\ map th_dead ths1 = map th_dead ths2 /\
    w_log w1 = w_log w ++ evs1 /\ w_log w2 = w_log w ++ evs2 /\ Permutation (drops_of evs1) (drops_of evs2) /\
    forall pl t v, at_place σ pl = Some (t, v) -> (forall k, In k ks -> tk_place k = pl \/ read_only k \/ away σ (tk_place k) pl) ->
      exists v', exec (ORead pl) (w1, sl) = Ok (OutVal v') (w1, sl) /\ exec (ORead pl) (w2, sl) = Ok (OutVal v') (w2, sl).
Proof.
  intros w sl σ n ks ths s1 s2 HR HF Hok Hsep HP.
  destruct (C56_threads w sl σ n ks ths s1 HR HF Hok Hsep) as (w1 & ths1 & σ1' & evs1 & ds1 & A1 & A2 & A3 & A4 & A5 & A6 & A7 & A8).
  destruct (C56_threads w sl σ n ks ths s2 HR HF Hok Hsep) as (w2 & ths2 & σ2' & evs2 & ds2 & B1 & B2 & B3 & B4 & B5 & B6 & B7 & B8).
  assert (Hcnt : forall i, count_occ Nat.eq_dec s1 i = count_occ Nat.eq_dec s2 i) by (intros i; now apply Permutation_count_occ).
  assert (Hsame : forall i k, nth_error ks i = Some k -> exists th1 th2 d v' t, nth_error ths1 i = Some th1 /\ nth_error ths2 i = Some th2 /\ th_outs th1 = th_outs th2 /\ th_dead th1 = th_dead th2 /\
            nth_error ds1 i = Some d /\ nth_error ds2 i = Some d /\ at_place σ1' (tk_place k) = Some (t, v') /\ at_place σ2' (tk_place k) = Some (t, v')).
  { intros i k Hi. destruct (Hok k (nth_error_In _ _ Hi)) as (t & v & Hp & _).
    destruct (A5 i k t v Hi Hp) as (th1 & d1 & v1 & X1 & X2 & X3 & X4). destruct (B5 i k t v Hi Hp) as (th2 & d2 & v2 & Y1 & Y2 & Y3 & Y4).
    rewrite Hcnt in X3. destruct (solo_det _ _ _ _ _ _ _ _ _ _ _ X3 Y3) as (E1 & E2 & <- & <-). exists th1, th2, d1, v1, t. auto 10. }
  assert (Hmap : forall B (f : thread -> B), (forall i k th1 th2, nth_error ks i = Some k -> nth_error ths1 i = Some th1 -> nth_error ths2 i = Some th2 -> f th1 = f th2) -> map f ths1 = map f ths2).
  { intros B f Hf. apply nth_ext_error. intros i. rewrite !nth_error_map. destruct (nth_error ks i) as [k|] eqn:Ei.
    - destruct (Hsame i k Ei) as (th1 & th2 & d & v' & t & X1 & X2 & _). rewrite X1, X2. cbn. f_equal. eapply Hf; eauto.
    - apply nth_error_None in Ei. rewrite (proj2 (nth_error_None ths1 i)), (proj2 (nth_error_None ths2 i)) by lia. reflexivity. }
  assert (Eds : ds1 = ds2).
  { apply nth_ext_error. intros i. destruct (nth_error ks i) as [k|] eqn:Ei.
    - destruct (Hsame i k Ei) as (th1 & th2 & d & v' & t & X). destruct X as (_ & _ & _ & _ & -> & -> & _). reflexivity.
    - apply nth_error_None in Ei. rewrite (proj2 (nth_error_None ds1 i)), (proj2 (nth_error_None ds2 i)) by lia. reflexivity. }
  exists w1, w2, ths1, ths2, evs1, evs2. split; [exact A1|]. split; [exact B1|].
  split. { apply Hmap. intros i k th1 th2 Hi H1 H2. destruct (Hsame i k Hi) as (? & ? & d & v' & t & X1 & X2 & X3 & _). congruence. }
  split. { apply Hmap. intros i k th1 th2 Hi H1 H2. destruct (Hsame i k Hi) as (? & ? & d & v' & t & X1 & X2 & _ & X3 & _). congruence. }
  split; [exact A6|]. split; [exact B6|]. split; [now rewrite A7, B7, Eds|].
  intros pl t v Hp Hk.
  assert (exists v', at_place σ1' pl = Some (t, v') /\ at_place σ2' pl = Some (t, v')) as (v' & P1 & P2).
  { assert ((exists k, In k ks /\ tk_place k = pl) \/ (forall k, In k ks -> read_only k \/ away σ (tk_place k) pl)) as [(k & Hin & <-)|Hn].
    { clear -Hk. induction ks as [|k ks IH]; [right; intros k []|]. destruct (Hk k (or_introl eq_refl)) as [E|E]; [left; exists k; split; [left; reflexivity|exact E]|].
      destruct IH as [(k' & H1 & H2)|H]; [intros k' Hin; apply Hk; right; exact Hin|left; exists k'; split; [right; exact H1|exact H2]|].
      right. intros k' [<-|Hin]; auto. }
    - destruct (In_nth_error _ _ Hin) as (i & Hi). destruct (Hsame i k Hi) as (th1 & th2 & d & v' & t' & X). destruct X as (Z & _ & _ & _ & _ & _ & Q1 & Q2).
      destruct (A5 i k t v Hi Hp) as (? & ? & v1 & _ & _ & _ & W). rewrite Q1 in W. injection W as -> ->. eauto.
    - exists v. auto. }
  exists v'. split; [exact (proj1 (C45_reads_back _ _ _ _ A2) pl t v' P1)|exact (proj1 (C45_reads_back _ _ _ _ B2) pl t v' P2)].
Qed.
(** Any number of threads may read the same object at the same time: nothing changes, and every read
    gives its value. *)
Lemma solo_reads t v : forall cs outs dead v' d, (forall c, In c cs -> c = CRead) -> solo t v cs outs dead v' d ->
  outs = repeat (OutVal v) (length cs) /\ dead = false /\ v' = v /\ d = [].
Proof.
  intros cs outs dead v' d Hr H. induction H as [|cs outs v1 d c o v2 d2 H IH Hc|cs outs v1 d c v2 d2 H IH Hc|cs outs v1 d c H IH]; [auto| | |];
    (assert (Ec : c = CRead) by (apply Hr, in_or_app; right; left; reflexivity)); subst c;
    destruct (IH (fun c Hi => Hr c (in_or_app _ _ _ (or_introl Hi)))) as (-> & Ed & -> & ->); try discriminate; inversion Hc; subst.
  rewrite app_length. cbn [length]. rewrite Nat.add_comm. cbn [Nat.add repeat]. split; [|auto]. now rewrite repeat_cons.
Qed.
Lemma readers_run w : forall sched ths, (forall th, In th ths -> (forall c, In c (th_todo th) -> c = CRead) /\ exists v, view (th_ty th) (th_addr th) w = Ok v w) ->
  exists ths', par_run sched (w, ths) = Ok tt (w, ths').
Proof.
  induction sched as [|i sched IH]; intros ths Hall; [exists ths; reflexivity|]. cbn [par_run].
  assert (exists ths', par_step i (w, ths) = Ok tt (w, ths') /\ forall th, In th ths' -> (forall c, In c (th_todo th) -> c = CRead) /\ exists v, view (th_ty th) (th_addr th) w = Ok v w) as (ths' & E & Hall').
  { cbn [par_step]. destruct (nth_error ths i) as [[t a [|c r] outs [|]]|] eqn:Ei; try (exists ths; split; [reflexivity|exact Hall]).
    destruct (Hall _ (nth_error_In _ _ Ei)) as (Hc & v & Hv). cbn [th_todo th_ty th_addr] in *. rewrite (Hc c (or_introl eq_refl)). cbn [run_cmd]. rewrite (bind_ok _ _ _ _ _ Hv). cbn [ret].
    eexists. split; [reflexivity|]. intros th Hin. apply In_nth_error in Hin as (j & Hj). rewrite nth_update in Hj. destruct (Nat.eq_dec i j) as [<-|_]; [|apply Hall; eapply nth_error_In, Hj].
    rewrite Ei in Hj. injection Hj as <-. cbn [th_todo th_ty th_addr]. split; [intros c' Hc'; apply Hc; right; exact Hc'|eauto]. }
  step E. exact (IH ths' Hall').
Qed.
Theorem C56_readers : forall w sl σ n ks ths sched,
  reach w sl σ n -> Forall2 (spawned w sl) ks ths ->
  (forall k, In k ks -> read_only k /\ exists t v, at_place σ (tk_place k) = Some (t, v)) ->
  exists ths', par_run sched (w, ths) = Ok tt (w, ths') /\
    forall i k t v, nth_error ks i = Some k -> at_place σ (tk_place k) = Some (t, v) ->
      exists th, nth_error ths' i = Some th /\ th_dead th = false /\
        th_outs th = repeat (OutVal v) (min (count_occ Nat.eq_dec sched i) (length (tk_cmds k))).
Proof.
  intros w sl σ n ks ths sched HR HF Hk.
  assert (Hok : forall k, In k ks -> exists t v, at_place σ (tk_place k) = Some (t, v) /\ Forall (cmd_ok t) (tk_cmds k)).
  { intros k Hin. destruct (Hk k Hin) as (Hro & t & v & Hp). exists t, v. split; [exact Hp|]. apply Forall_forall. intros c Hc. rewrite (Hro c Hc). exact I. }
  assert (Hsep : separate σ ks) by (intros i j k k' Hi Hj _; right; split; [apply (Hk k)|apply (Hk k')]; eapply nth_error_In; eauto).
  destruct (C56_threads w sl σ n ks ths sched HR HF Hok Hsep) as (w' & ths' & σ' & evs & ds & A1 & _ & _ & _ & A5 & _).
  destruct (readers_run w sched ths) as (ths2 & E).
  { intros th Hin. apply In_nth_error in Hin as (i & Hi). assert (exists k, In k ks /\ spawned w sl k th) as (k & Hin & t & a & Hr & ->).
    { clear -HF Hi. revert i Hi. induction HF as [|k0 th0 ks ths H0 HF IH]; intros [|i] Hi; try discriminate; cbn [nth_error] in *; [injection Hi as ->; exists k0; split; [left; reflexivity|exact H0]|].
      destruct (IH i Hi) as (k & H1 & H2). exists k. split; [right; exact H1|exact H2]. }
    cbn [th_todo th_ty th_addr]. destruct (Hk k Hin) as (Hro & t' & v & Hp). split; [exact Hro|].
    destruct (resolve_ok w sl σ n (tk_place k) t' v (reach_inv _ _ _ _ HR) Hp) as (a0 & s0 & v0 & E & Hwf & Ho & _). rewrite Hr in E. injection E as -> ->. exists v. now apply view_ok. }
  rewrite E in A1. injection A1 as <- <-. exists ths2. split; [exact E|]. intros i k t v Hi Hp.
  destruct (A5 i k t v Hi Hp) as (th & d & v' & X1 & _ & X3 & _). exists th. split; [exact X1|].
  apply solo_reads in X3 as (E1 & E2 & _); [|intros c Hc; apply (proj1 (Hk k (nth_error_In _ _ Hi))); rewrite <- (firstn_skipn (count_occ Nat.eq_dec sched i)); apply in_or_app; left; exact Hc].
  split; [exact E2|]. now rewrite E1, firstn_length.
Qed.

(** ** a concrete program *)
(** The box and the sequence of [c4], four threads: one has the first tuple of the sequence and replaces
    an element of its array, one has the second tuple, whose array is empty, and panics, two have
    different fields of the struct in the box. *)
Definition k4 : list task :=
  [ mkTask (PlElem 1 0 PHere) [CRead; CAssign (PFld 0 (PIdx 1)) h1; CRead];
    mkTask (PlElem 1 1 PHere) [CAssign (PFld 1 PHere) (by_ [9;9;9;9]); CAssign (PFld 0 (PIdx 0)) h1; CRead];
    mkTask (PlObj 0 (PFld 4 PHere)) [CAssign (PFld 0 (PIdx 0)) h1; CRead];
    mkTask (PlObj 0 (PFld 2 PHere)) [CRead] ].
Definition thread_at (c : config) (k : task) : thread :=
  match resolve (snd c) (tk_place k) (fst c) with
  | Ok (t, a) _ => mkTh t a (tk_cmds k) [] false
  | _ => mkTh (TFixed u8) 0 [] [] true
  end.
Lemma thread_spawned w sl σ n k t v : reach w sl σ n -> at_place σ (tk_place k) = Some (t, v) -> spawned w sl k (thread_at (w, sl) k).
Proof.
  intros HR Hp. destruct (C55_address w sl σ n (tk_place k) t v HR Hp) as (a & _ & E). exists t, a. split; [exact E|]. unfold thread_at. cbn [fst snd]. now rewrite E.
Qed.
Lemma spawned_all w sl σ n : reach w sl σ n -> forall ks, (forall k, In k ks -> exists t v, at_place σ (tk_place k) = Some (t, v)) -> Forall2 (spawned w sl) ks (map (thread_at (w, sl)) ks).
Proof.
  intros HR. induction ks as [|k ks IH]; intros H; cbn [map]; [constructor|]. constructor; [|apply IH; intros k' Hk'; apply H; right; exact Hk'].
  destruct (H k (or_introl eq_refl)) as (t & v & Hp). eapply thread_spawned; eauto.
Qed.
Lemma k4_ok : forall k, In k k4 -> exists t v, at_place σ4 (tk_place k) = Some (t, v) /\ Forall (cmd_ok t) (tk_cmds k).
Proof.
  intros k [<-|[<-|[<-|[<-|[]]]]]; (eexists; eexists; split; [reflexivity|]); repeat constructor; cbn [cmd_ok]; eexists; split; try reflexivity.
Qed.
Lemma k4_separate : separate σ4 k4.
Proof.
  intros i j k k' Hi Hj Hne. left.
  destruct i as [|[|[|[|i]]]]; cbn in Hi; try (destruct i; discriminate Hi); injection Hi as <-;
    (destruct j as [|[|[|[|j]]]]; cbn in Hj; try (destruct j; discriminate Hj); injection Hj as <-); try congruence; cbn -[Nat.eq_dec];
    first [left; discriminate | right; left; discriminate | right; right; apply V_fields; discriminate].
Qed.
(** Its results under one schedule: the second thread panics and does not get to read. *)
Definition outs_of (r : res (world * list thread) unit) : list (list out * bool) :=
  match r with Ok _ (_, ths) => map (fun th => (th_outs th, th_dead th)) ths | _ => [] end.
Example C56_meets :
  reach (fst c4) (snd c4) σ4 0 /\ Forall2 (spawned (fst c4) (snd c4)) k4 (map (thread_at (fst c4, snd c4)) k4) /\
  (forall k, In k k4 -> exists t v, at_place σ4 (tk_place k) = Some (t, v) /\ Forall (cmd_ok t) (tk_cmds k)) /\ separate σ4 k4 /\
  outs_of (par_run [2; 1; 0; 3; 0; 1; 2; 1; 0]%nat (fst c4, map (thread_at (fst c4, snd c4)) k4)) =
    [ ([OutVal v_tup; OutUnit; OutVal (VRec [VArr [h2; h1]; VFix (by_ [1;2;3;4])])], false);
      ([OutUnit], true);
      ([OutUnit; OutVal (VRec [VArr [h1; h3]; VFix (by_ [1;2;3;4])])], false);
      ([OutVal (VNew (VArr [by_ [97]; by_ [98]; by_ [99]]))], false) ].
Proof.
  split; [apply reach_c4|]. split.
  { eapply spawned_all; [apply reach_c4|]. intros k Hk. destruct (k4_ok k Hk) as (t & v & H & _). eauto. }
  split; [apply k4_ok|]. split; [apply k4_separate|]. vm_compute. reflexivity.
Qed.
(** Two threads that read the same tuple, and one that reads the array in it. *)
Example C56_readers_meets : let ks := [mkTask (PlElem 1 0 PHere) [CRead; CRead]; mkTask (PlElem 1 0 PHere) [CRead]; mkTask (PlElem 1 0 (PFld 0 PHere)) [CRead]] in
  reach (fst c4) (snd c4) σ4 0 /\ Forall2 (spawned (fst c4) (snd c4)) ks (map (thread_at (fst c4, snd c4)) ks) /\
  (forall k, In k ks -> read_only k /\ exists t v, at_place σ4 (tk_place k) = Some (t, v)).
Proof.
  intros ks. assert (H : forall k, In k ks -> read_only k /\ exists t v, at_place σ4 (tk_place k) = Some (t, v)).
  { intros k [<-|[<-|[<-|[]]]]; (split; [intros c Hc; cbn in Hc; intuition congruence|eexists; eexists; reflexivity]). }
  split; [apply reach_c4|]. split; [eapply spawned_all; [apply reach_c4|]; intros k Hk; apply H, Hk|exact H].
Qed.
(** The hypothesis [separate] is needed: a thread that reads a tuple while another assigns to the array
    in it gets a result that depends on the schedule. *)
Example C56_race :
  let ks := [mkTask (PlElem 1 0 PHere) [CRead]; mkTask (PlElem 1 0 (PFld 0 PHere)) [CAssign (PIdx 1) h1]] in
  let ths := map (thread_at (fst c4, snd c4)) ks in
  Forall2 (spawned (fst c4) (snd c4)) ks ths /\ ~ separate σ4 ks /\
  outs_of (par_run [0; 1]%nat (fst c4, ths)) <> outs_of (par_run [1; 0]%nat (fst c4, ths)).
Proof.
  intros ks ths. split.
  { eapply spawned_all; [apply reach_c4|]. intros k [<-|[<-|[]]]; eexists; eexists; reflexivity. }
  split.
  - intros H. destruct (H 0 1 _ _ eq_refl eq_refl)%nat as [Ha|[_ Hro]]; [discriminate| |specialize (Hro _ (or_introl eq_refl)); discriminate].
    cbn in Ha. destruct Ha as [Ha|[Ha|Ha]]; [congruence|congruence|inversion Ha].
  - vm_compute. discriminate.
Qed.
