(** PropsPin.v - property C55: pinned objects stay where they are. *)
From Verif Require Import PlaceAddr AccountSpec PropsProgram PropsAccount.

(** Evaluating a place expression gives the address [place_addr] says: the pointer of the owner plus an
    offset that is a function of the shapes of its values. *)
Theorem C55_address : forall w sl σ n pl t v,
  reach w sl σ n -> at_place σ pl = Some (t, v) ->
  exists a, place_addr sl σ pl = Some a /\ resolve sl pl w = Ok (t, a) w.
Proof. intros w sl σ n pl t v HR Hp. eapply resolve_addr; [eapply reach_inv, HR|exact Hp]. Qed.

Lemma stays_step w sl σ n o r w' sl' σ' d n' pl t v :
  Inv w sl σ n -> Inv w' sl' σ' n' -> allowed σ o -> astep σ o r σ' d -> ~ disturbs o (place_handle pl) -> ends (exec o (w, sl)) r w' sl' ->
  at_place σ pl = Some (t, v) ->
  place_addr sl' σ' pl = place_addr sl σ pl /\ exists v', at_place σ' pl = Some (t, v') /\ vshape v' = vshape v.
Proof.
  intros HI HI' Hal HA Hd He Hp.
  assert (exists u, nth_error σ (place_handle pl) = Some u) as (u & Hu).
  { destruct pl; cbn [at_place place_handle] in *; destruct (nth_error σ _); try discriminate; eauto. }
  destruct (at_h_vals w sl σ n _ u HI Hu) as (s & [Es _] & Hrep).
  destruct (astep_shape w sl σ n o r σ' d _ u HI Hal HA Hd Hu) as (u' & Hu' & Hs).
  destruct (at_h_vals w' sl' σ' n' _ u' HI' Hu') as (s' & [Es' _] & Hrep').
  assert (Hl : (place_handle pl < length sl)%nat) by (apply nth_error_Some; congruence).
  eapply (place_same sl σ sl' σ' pl t v u u'); eauto using rep_val_ok. eapply exec_slot; eauto.
Qed.
Lemma ends_inv w sl σ n o r w' sl' σ' d : reach w sl σ n -> allowed σ o -> ends (exec o (w, sl)) r w' sl' -> astep σ o r σ' d -> exists n', reach w' sl' σ' n'.
Proof. intros HR Hal He HA. destruct r; cbn [ends] in He; eexists; [eapply R_done|eapply R_panicked]; eauto. Qed.

(** No operation moves an object of an owner that it neither consumes nor borrows mutably as a whole:
    a reference to the object (or to a field of it) obtained before the operation still denotes the
    object - same address, same type, same shape - after it, whether the operation returned or
    panicked. *)
Theorem C55_stays : forall w sl σ n o r w' sl' pl t v a,
  reach w sl σ n -> allowed σ o -> ~ disturbs o (place_handle pl) -> ends (exec o (w, sl)) r w' sl' ->
  at_place σ pl = Some (t, v) -> resolve sl pl w = Ok (t, a) w ->
  resolve sl' pl w' = Ok (t, a) w' /\
  exists v', exec (ORead pl) (w', sl') = Ok (OutVal v') (w', sl') /\ vshape v' = vshape v.
Proof.
  intros w sl σ n o r w' sl' pl t v a HR Hal Hd He Hp Hr.
  assert (exists σ' d n', astep σ o r σ' d /\ reach w' sl' σ' n') as (σ' & d & n' & HA & HR').
  { pose proof (C45_program_safe w sl σ n o HR Hal) as HS. destruct r; cbn [ends] in He; rewrite He in HS.
    - destruct HS as (σ' & evs & _ & A & R). eauto.
    - destruct HS as (σ' & evs & n' & _ & A & R & _). eauto. }
  pose proof (reach_inv _ _ _ _ HR) as HI. pose proof (reach_inv _ _ _ _ HR') as HI'.
  destruct (stays_step w sl σ n o r w' sl' σ' d n' pl t v HI HI' Hal HA Hd He Hp) as (Ea & v' & Hp' & Hs).
  destruct (resolve_addr w sl σ n pl t v HI Hp) as (a0 & E1 & E2). rewrite Hr in E2. injection E2 as <-.
  destruct (resolve_addr w' sl' σ' n' pl t v' HI' Hp') as (a1 & E3 & E4). rewrite Ea, E1 in E3. injection E3 as <-.
  split; [exact E4|]. exists v'. split; [|exact Hs]. exact (proj1 (C45_reads_back w' sl' σ' n' HR') pl _ _ Hp').
Qed.
(** The same for any run of such operations. *)
Theorem C55_stays_run : forall w sl σ n w' sl' σ' pl t v a,
  reach w sl σ n -> quiet (place_handle pl) w sl σ w' sl' σ' ->
  at_place σ pl = Some (t, v) -> resolve sl pl w = Ok (t, a) w ->
  resolve sl' pl w' = Ok (t, a) w' /\ exists v', at_place σ' pl = Some (t, v') /\ vshape v' = vshape v.
Proof.
  intros w sl σ n w' sl' σ' pl t v a HR HQ Hp Hr. pose proof (reach_inv _ _ _ _ HR) as HI.
  destruct (resolve_addr w sl σ n pl t v HI Hp) as (a0 & E1 & E2). rewrite Hr in E2. injection E2 as <-.
  enough (exists n', reach w' sl' σ' n' /\ place_addr sl' σ' pl = Some a /\ exists v', at_place σ' pl = Some (t, v') /\ vshape v' = vshape v) as (n' & R & Ea & v' & Hp' & Hs).
  { split; [|eauto]. destruct (resolve_addr w' sl' σ' n' pl t v' (reach_inv _ _ _ _ R) Hp') as (a1 & E3 & E4). rewrite Ea in E3. injection E3 as <-. exact E4. }
  induction HQ as [|w1 sl1 σ1 o r w2 sl2 σ2 d HQ IH Hal Hd He HA]; [exists n; eauto|].
  destruct IH as (n1 & R1 & Ea & v1 & Hp1 & Hs1). destruct (ends_inv _ _ _ _ _ _ _ _ _ _ R1 Hal He HA) as (n2 & R2). exists n2. split; [exact R2|].
  destruct (stays_step w1 sl1 σ1 n1 o r w2 sl2 σ2 d n2 pl t v1 (reach_inv _ _ _ _ R1) (reach_inv _ _ _ _ R2) Hal HA Hd He Hp1) as (Eb & v2 & Hp2 & Hs2).
  rewrite Eb. split; [exact Ea|]. exists v2. split; [exact Hp2|congruence].
Qed.

(** ** pushing *)
Lemma index_of_app o l r k : index_of o l = Some k -> index_of o (l ++ r) = Some k.
Proof.
  revert k. induction l as [|x l IH]; intros k; cbn [index_of app]; [discriminate|]. destruct (o =? x); [auto|].
  destruct (index_of o l) as [j|]; [|discriminate]. rewrite (IH j eq_refl). auto.
Qed.
Lemma starts_snoc t : forall vs v b, exists r, starts t (vs ++ [v]) b = starts t vs b ++ r.
Proof.
  induction vs as [|u vs IH]; intros v b; cbn [app starts]; [eexists; reflexivity|].
  match goal with |- context [starts t (vs ++ [v]) ?b'] => destruct (IH v b') as (r & ->) end. eexists. reflexivity.
Qed.
(** Pushing to a sequence moves none of its elements as long as the new element fits in the capacity
    that is there; otherwise the elements move together with the storage, keeping their offsets. *)
Theorem C55_push_in_place : forall w sl σ n h p r w' sl' t chk s vs old i pl t' v a,
  reach w sl σ n -> allowed σ (OPush h p) ->
  nth_error sl h = Some (SSeq t chk s) -> nth_error σ h = Some (ASeq t chk vs old) -> den σ t p i ->
  total t vs + ceil_div (isize t i) (sp_align t) <= seq_capacity s ->
  ends (exec (OPush h p) (w, sl)) r w' sl' ->
  place_handle pl = h -> at_place σ pl = Some (t', v) -> resolve sl pl w = Ok (t', a) w ->
  resolve sl' pl w' = Ok (t', a) w' /\ exec (ORead pl) (w', sl') = Ok (OutVal v) (w', sl').
Proof.
  intros w sl σ n h p r w' sl' t chk s vs old i pl t' v a HR Hal Hs Hu Hden Hfit He Hh Hp Hr.
  pose proof (reach_inv _ _ _ _ HR) as HI. pose proof HI as (Hbl & _).
  destruct (resolve_addr w sl σ n pl t' v HI Hp) as (a0 & E1 & E2). rewrite Hr in E2. injection E2 as <-.
  assert (exists σ' d n', astep σ (OPush h p) r σ' d /\ reach w' sl' σ' n') as (σ' & d & n' & HA & HR').
  { pose proof (C45_program_safe w sl σ n _ HR Hal) as HS. destruct r; cbn [ends] in He; rewrite He in HS.
    - destruct HS as (σ' & evs & _ & A & R). eauto.
    - destruct HS as (σ' & evs & n' & _ & A & R & _). eauto. }
  destruct (seq_slot w sl σ n h t chk vs old HI Hu) as (s0 & Hah & Hwf & Hz & Hat & Hbits).
  assert (s0 = s) as -> by (pose proof (proj1 Hah); congruence).
  inversion Hal as [| | |? ? t1 chk1 vs1 old1 i1 Hh1 Hden1 Hbo| | | | | | | | | | | | | | | | | |]; subst.
  rewrite Hu in Hh1. injection Hh1 as <- <- <- <-.
  assert (i1 = i) as -> by (eapply (proj1 (den_fun σ)); eassumption).
  destruct (proj1 (eval_all w sl σ n HI) t p i Hden Hwf) as (i0 & E & En & Hi & Hm & Hsr).
  assert (Hnm : ~ In (place_handle pl) (moves p)).
  { intros Hin. destruct (proj1 (proj2 Hbo) _ Hin) as [_ X]. apply X. left. reflexivity. }
  assert (Hready : push_ready w t chk s i0).
  { apply (eval_ready w sl σ n t p i0 [place_handle pl]); auto. unfold seq_bytes. destruct (N.eqb_spec (s_cap s) 0) as [E0|E0]; [left; reflexivity|right].
    exists (place_handle pl), (SSeq t chk s), (ASeq t chk vs old). split; [left; reflexivity|]. split; [exact Hah|]. right. cbn [hblocks].
    destruct (N.eqb_spec (s_cap s) 0); [lia|]. eexists. split; [left; reflexivity|]. cbn. lia. }
  assert (Hocc : s_occ s = total t vs) by apply Hat.
  assert (Hle : s_occ s + icells t i0 <= s_cap s).
  { subst i. rewrite isize_noaddr in Hfit. rewrite Hocc. exact Hfit. }
  pose proof (push_growth t chk w s i0 vs Hwf Hz Hbl Hat Hready) as HG.
  cbn [exec] in He. rewrite Hs in He. unfold call_seq in He. rewrite (bind_ok _ _ _ _ _ (lft_ok _ _ s _ _ E)), seq_push_strip in He.
  assert (exists s', nth_error sl' (place_handle pl) = Some (SSeq t chk s') /\ s_ptr s' = s_ptr s) as (s' & Hs' & Hptr).
  { assert (Hlt : (place_handle pl < length (kill sl (moves p)))%nat).
    { change (kill sl (moves p)) with (kills SDead sl (moves p)). rewrite kills_length. apply nth_error_Some. congruence. }
    destruct (seq_push t chk i0 (w, s)) as [u [w1 s1]|[w1 s1]|] eqn:Ex; [| |contradiction];
      destruct HG as (evs & _ & HG & _); destruct (HG Hle) as (_ & Hptr & _); destruct r; cbn [ends] in He; inversion He; subst;
      exists s1; (split; [|exact Hptr]); rewrite nth_update; destruct (Nat.eq_dec _ _); [|congruence|idtac|congruence];
      (destruct (nth_error (kill sl (moves p)) (place_handle pl)) eqn:Ek; [reflexivity|apply nth_error_None in Ek; cbn [snd fst] in *; lia]). }
  assert (exists ws, nth_error σ' (place_handle pl) = Some (ASeq t chk (vs ++ ws) old) /\ (ws = [] \/ exists u, ws = [u])) as (ws & Hσ' & Hws).
  { assert (Hk : nth_error (kill_vals σ (moves p)) (place_handle pl) = Some (ASeq t chk vs old)) by (now rewrite nth_kill_vals).
    inversion HA; subst.
    - match goal with X : nth_error σ _ = Some _ |- _ => rewrite Hu in X; injection X as <- <- <- <- end.
      exists [v0]. split; [|eauto]. rewrite nth_replace_nth. destruct (Nat.eq_dec _ _); [|congruence]. now rewrite Hk.
    - exists []. rewrite app_nil_r. auto.
    - exists []. rewrite app_nil_r. auto. }
  assert (at_place σ' pl = Some (t', v) /\ place_addr sl' σ' pl = Some a) as (Hp' & Ha').
  { destruct pl as [h p1|h k p1|h b o p1]; cbn [place_handle at_place place_addr] in *; rewrite Hu in *; rewrite Hσ', Hs'.
    - discriminate.
    - rewrite Hs in E1. destruct (nth_error vs k) as [x|] eqn:Ek; [|discriminate].
      assert (Hlt : (k < length vs)%nat) by (apply nth_error_Some; congruence).
      rewrite (nth_app_some _ ws k x Ek), Hptr. split; [exact Hp|].
      rewrite firstn_app. replace (k - length vs)%nat with O by lia. cbn [firstn]. now rewrite app_nil_r.
    - rewrite Hs in E1. destruct (b || chk)%bool; [|discriminate]. destruct (index_of o (starts t vs 0)) as [k|] eqn:Eo; [|discriminate].
      destruct (nth_error vs k) as [x|] eqn:Ek; [|discriminate].
      assert (Eo' : index_of o (starts t (vs ++ ws) 0) = Some k).
      { destruct Hws as [-> | [u ->]]; [now rewrite app_nil_r|]. destruct (starts_snoc t vs u 0) as (r0 & ->). now apply index_of_app. }
      rewrite Eo', (nth_app_some _ ws k x Ek), Hptr. auto. }
  destruct (resolve_addr w' sl' σ' n' pl t' v (reach_inv _ _ _ _ HR') Hp') as (a1 & E3 & E4). rewrite Ha' in E3. injection E3 as <-.
  split; [exact E4|]. exact (proj1 (C45_reads_back w' sl' σ' n' HR') pl _ _ Hp').
Qed.

(** ** what pinning promises *)
Lemma drops_part p t v t' v' : vok t v -> subval t v p = Some (t', v') -> incl (vdrops t' v') (vdrops t v).
Proof.
  intros Hv Hs. assert (exists new, vdrops t' new = []) as (new & E).
  { destruct t'; [exists (VNew (VFix []))|exists (VNew (VFix []))|exists (VFix [])|exists (VFix [])]; reflexivity. }
  pose proof (vdrops_putsub p t v t' v' new Hv Hs) as H. rewrite E, app_nil_r in H.
  intros x Hx. eapply Permutation_in; [exact H|]. apply in_or_app. auto.
Qed.
Lemma vals_drops σ pl t v u : at_place σ pl = Some (t, v) -> nth_error σ (place_handle pl) = Some u -> val_ok u -> incl (vdrops t v) (owned_drops u).
Proof.
  intros Hp Hu Hv.
  assert (Hc : forall t0 vs k x, nth_error vs k = Some x -> incl (vdrops t0 x) (concat (map (vdrops t0) vs))).
  { intros t0 vs k x Hk y Hy. apply in_concat. exists (vdrops t0 x). split; [|exact Hy]. apply in_map, (nth_error_In _ _ Hk). }
  destruct pl as [h p|h k p|h b o p]; cbn [at_place place_handle] in *; rewrite Hu in Hp; destruct u as [t0 x|t0 x|t0 c vs old|]; try discriminate; cbn [val_ok owned_drops] in *.
  - eapply drops_part; eauto.
  - eapply drops_part; eauto.
  - destruct (nth_error vs k) as [x|] eqn:Ek; [|discriminate]. rewrite Forall_forall in Hv.
    intros y Hy. eapply Hc; [exact Ek|]. eapply drops_part; eauto using nth_error_In.
  - destruct (b || c)%bool; [|discriminate]. destruct (index_of _ _) as [k|]; [|discriminate]. destruct (nth_error vs k) as [x|] eqn:Ek; [|discriminate]. rewrite Forall_forall in Hv.
    intros y Hy. eapply Hc; [exact Ek|]. eapply drops_part; eauto using nth_error_In.
Qed.
Lemma in_storage_allocated w s u a n : rep w s u -> in_storage s u a n -> 0 < n -> allocated w a n.
Proof. intros Hr [H|(b & Hb & H1 & H2)] Hn; [lia|]. exists b. split; [eapply rep_blocks; eauto|lia]. Qed.
(** The memory of an object that has something to destroy is not freed before a destructor has run,
    unless the object may have been moved: its box became an initializer, or its sequence was pushed to. *)
Theorem C55_memory_kept : forall w sl σ n o r w' sl' pl t v a,
  reach w sl σ n -> allowed σ o -> at_place σ pl = Some (t, v) -> resolve sl pl w = Ok (t, a) w ->
  ends (exec o (w, sl)) r w' sl' -> vdrops t v <> [] -> 0 < vsize t v ->
  (* no destructor has run *)
  drops_of (w_log w') = drops_of (w_log w) ->
  ~ relocates o (place_handle pl) ->
  allocated w' a (vsize t v).
Proof.
  intros w sl σ n o r w' sl' pl t v a HR Hal Hp Hr He Hne Hsz Hlog Hrel.
  pose proof (reach_inv _ _ _ _ HR) as HI. pose proof HI as (Hbl & _).
  assert (exists σ' evs n', w_log w' = w_log w ++ evs /\ astep σ o r σ' (drops_of evs) /\ reach w' sl' σ' n') as (σ' & evs & n' & Hl & HA & HR').
  { pose proof (C45_program_safe w sl σ n o HR Hal) as HS. destruct r; cbn [ends] in He; rewrite He in HS.
    - destruct HS as (σ' & evs & L & A & R). eauto 8.
    - destruct HS as (σ' & evs & n' & L & A & R & _). eauto 8. }
  assert (Hnil : drops_of evs = []).
  { rewrite Hl, drops_app in Hlog. rewrite <- (app_nil_r (drops_of (w_log w))) in Hlog at 2. now apply app_inv_head in Hlog. }
  rewrite Hnil in HA. pose proof (reach_inv _ _ _ _ HR') as HI'.
  assert (exists u, nth_error σ (place_handle pl) = Some u) as (u & Hu).
  { destruct pl; cbn [at_place place_handle] in *; destruct (nth_error σ _); try discriminate; eauto. }
  destruct (at_h_vals w sl σ n _ u HI Hu) as (s & [Es _] & Hrep).
  destruct (resolve_ok w sl σ n pl t v HI Hp) as (a0 & s0 & u0 & E0 & Hwf & Ho & Hah & Hst & _). rewrite Hr in E0. injection E0 as <-.
  destruct (at_h_fun _ _ _ _ _ _ _ Hah (conj Es Hu)) as [-> ->].
  assert (Hquiet : ~ disturbs o (place_handle pl) -> allocated w' a (vsize t v)).
  { intros Hd. destruct (stays_step w sl σ n o r w' sl' σ' _ n' pl t v HI HI' Hal HA Hd He Hp) as (Ea & v' & Hp' & Hs).
    destruct (C55_stays w sl σ n o r w' sl' pl t v a HR Hal Hd He Hp Hr) as (Er & _).
    destruct (resolve_ok w' sl' σ' n' pl t v' HI' Hp') as (a1 & s1 & u1 & E1 & _ & Ho1 & Hah1 & Hst1 & _). rewrite Er in E1. injection E1 as <-.
    assert (vsize t v' = vsize t v) as Ev by (unfold vsize; now rewrite Hs). rewrite Ev in Hst1.
    eapply in_storage_allocated; [|exact Hst1|exact Hsz]. exact (proj1 (proj2 (proj2 HI')) _ _ _ Hah1). }
  assert (Hown : owned_drops u <> []).
  { pose proof (vals_drops σ pl t v u Hp Hu (rep_val_ok _ _ _ Hrep)) as Hi. destruct (vdrops t v) as [|x l]; [congruence|].
    intros E. rewrite E in Hi. destruct (Hi x (or_introl eq_refl)). }
  (* the storage of a sequence whose elements are taken out stays *)
  assert (Htaken : forall t0 c vs old (m : iter -> M world (list out)) k, u = ASeq t0 c vs old ->
    match nth_error sl (place_handle pl) with
    | Some (SSeq t chk s) =>
        call_seq (it <- take_elems t chk ;; lft (m it)) s
          (fun l s' => (k l, update sl (place_handle pl) (SSeq t chk s')))
          (fun s' => update sl (place_handle pl) (SSeq t chk s')) w
    | _ => UB UType
    end = exec o (w, sl) -> allocated w' a (vsize t v)).
  { intros t0 c vs old m k -> Ex. destruct (seq_slot w sl σ n _ t0 c vs old HI Hu) as (s1 & Hah1 & Hwf1 & Hz & Hat & Hbits).
    destruct (at_h_fun _ _ _ _ _ _ _ Hah Hah1) as [-> _]. rewrite Es in Ex. unfold call_seq in Ex.
    destruct (take_elems_ok w t0 c s1 vs Hwf1 Hbl Hat) as (w1 & it & E1 & _). rewrite (bind_ok _ _ _ _ _ E1) in Ex. unfold lft in Ex.
    assert (Hlt : (place_handle pl < length sl)%nat) by (apply nth_error_Some; congruence).
    assert (Hs' : nth_error sl' (place_handle pl) = Some (SSeq t0 c (mkS (s_ptr s1) 0 0 (s_cap s1)))).
    { rewrite <- Ex in He. destruct (m it w1); destruct r; cbn [ends] in He; inversion He; subst; cbn [snd];
        rewrite nth_update; (destruct (Nat.eq_dec _ _); [|congruence]); rewrite Es; reflexivity. }
    assert (exists u', nth_error σ' (place_handle pl) = Some u') as (u' & Hu').
    { destruct (nth_error σ' (place_handle pl)) eqn:En; [eauto|]. apply nth_error_None in En.
      assert (nth_error sl' (place_handle pl) <> None) as X by congruence. apply nth_error_Some in X. destruct HI' as (_ & Hlen & _). lia. }
    pose proof (proj1 (proj2 (proj2 HI')) _ _ _ (conj Hs' Hu')) as Hrep'.
    destruct Hst as [Hz0|(b & Hb & H1 & H2)]; [rewrite Hz0 in Hsz; exfalso; exact (N.lt_irrefl _ Hsz)|]. cbn [hblocks] in Hb. destruct (N.eqb_spec (s_cap s1) 0) as [|Hc]; [contradiction|].
    destruct Hb as [<-|[]]. exists (seq_block t0 c s1). split; [|auto]. apply (rep_blocks _ _ _ Hrep').
    destruct u'; cbn [rep] in Hrep'; try contradiction. cbn [hblocks s_cap]. destruct (N.eqb_spec (s_cap s1) 0); [lia|]. left. reflexivity. }
  destruct o; try (apply Hquiet; intros H0; exact H0); cbn [relocates] in Hrel; try (apply Hquiet; exact Hrel).
  - (* drop *) destruct (Nat.eq_dec (place_handle pl) h) as [<-|Hn]; [|apply Hquiet; exact Hn].
    inversion HA; subst. match goal with X : nth_error σ _ = Some _ |- _ => rewrite Hu in X; injection X as <- end. congruence.
  - (* drain *) destruct (Nat.eq_dec (place_handle pl) h) as [<-|Hn]; [|apply Hquiet; exact Hn].
    inversion Hal; subst. match goal with X : nth_error σ _ = Some _ |- _ => rewrite Hu in X; injection X as -> end.
    eapply (Htaken _ _ _ _ (fun it => owned_elems_drop t0 it ;;; ret []) (fun _ => OutUnit)); [reflexivity|].
    cbn [exec]. rewrite Es. destruct s as [| |t1 c1 s1|]; try (cbn in Hrep; contradiction). cbn [rep] in Hrep. destruct Hrep as ((-> & -> & _) & _).
    unfold call_seq, bind, lft. destruct (take_elems _ _ _) as [it [w1 s2]| |]; try reflexivity. unfold ret. destruct (owned_elems_drop _ _ _); reflexivity.
  - (* forget *) destruct (Nat.eq_dec (place_handle pl) h) as [<-|Hn]; [|apply Hquiet; exact Hn].
    cbn [exec] in He. rewrite Es in He. assert (w' = w) as -> by (destruct s, r; cbn [ends] in He; inversion He; reflexivity).
    eapply in_storage_allocated; eauto.
  - (* take *) destruct (Nat.eq_dec (place_handle pl) h) as [<-|Hn]; [|apply Hquiet; exact Hn].
    inversion Hal; subst. match goal with X : nth_error σ _ = Some _ |- _ => rewrite Hu in X; injection X as -> end.
    eapply (Htaken _ _ _ _ (fun it => take_run t0 it cmds keep) OutList); [reflexivity|].
    cbn [exec]. rewrite Es. destruct s as [| |t1 c1 s1|]; try (cbn in Hrep; contradiction). cbn [rep] in Hrep. destruct Hrep as ((-> & -> & _) & _). reflexivity.
Qed.

(** The memory of an object that has something to destroy is not used for anything else before a destructor has run,
    unless the object may have been moved, or was given up by mem::forget: it is still the same object, at the same
    address. *)
Theorem C55_not_reused : forall w sl σ n o r w' sl' pl t v a,
  reach w sl σ n -> allowed σ o -> at_place σ pl = Some (t, v) -> resolve sl pl w = Ok (t, a) w ->
  ends (exec o (w, sl)) r w' sl' -> vdrops t v <> [] ->
  (* no destructor has run *)
  drops_of (w_log w') = drops_of (w_log w) ->
  ~ relocates o (place_handle pl) -> ~ lets_go o (place_handle pl) ->
  resolve sl' pl w' = Ok (t, a) w' /\
  exists v', exec (ORead pl) (w', sl') = Ok (OutVal v') (w', sl') /\ vshape v' = vshape v.
Proof.
  intros w sl σ n o r w' sl' pl t v a HR Hal Hp Hr He Hne Hlog Hrel Hgo.
  pose proof (reach_inv _ _ _ _ HR) as HI.
  assert (exists σ' evs, w_log w' = w_log w ++ evs /\ astep σ o r σ' (drops_of evs)) as (σ' & evs & Hl & HA).
  { pose proof (C45_program_safe w sl σ n o HR Hal) as HS. destruct r; cbn [ends] in He; rewrite He in HS.
    - destruct HS as (σ' & evs & L & A & R). eauto.
    - destruct HS as (σ' & evs & n' & L & A & R & _). eauto. }
  assert (Hnil : drops_of evs = []).
  { rewrite Hl, drops_app in Hlog. rewrite <- (app_nil_r (drops_of (w_log w))) in Hlog at 2. now apply app_inv_head in Hlog. }
  rewrite Hnil in HA.
  assert (exists u, nth_error σ (place_handle pl) = Some u) as (u & Hu).
  { destruct pl; cbn [at_place place_handle] in *; destruct (nth_error σ _); try discriminate; eauto. }
  destruct (at_h_vals w sl σ n _ u HI Hu) as (s & _ & Hrep).
  assert (Hown : owned_drops u <> []).
  { pose proof (vals_drops σ pl t v u Hp Hu (rep_val_ok _ _ _ Hrep)) as Hi. destruct (vdrops t v) as [|x l]; [congruence|].
    intros E. rewrite E in Hi. destruct (Hi x (or_introl eq_refl)). }
  apply (C55_stays w sl σ n o r w' sl' pl t v a HR Hal); auto. intros Hd.
  destruct o; cbn [disturbs relocates lets_go] in *; try contradiction; subst.
  - inversion HA; subst. match goal with X : nth_error σ _ = Some _ |- _ => rewrite Hu in X; injection X as <- end. congruence.
  - inversion HA; subst. match goal with X : nth_error σ _ = Some (ASeq _ _ _ _) |- _ => rewrite Hu in X; injection X as -> end. apply Hown. assumption.
  - assert (Hf : existsb forgets cmds = false).
    { destruct (existsb forgets cmds) eqn:E; [|reflexivity]. apply existsb_exists in E. destruct E as (c & Hc & E). destruct c; try discriminate. destruct Hgo. eauto. }
    assert (Hk : keep = false) by (destruct keep; [destruct Hgo; auto|reflexivity]). subst keep.
    apply rep_val_ok in Hrep.
    assert (exists t0 c vs old rest hd d, u = ASeq t0 c vs old /\ d ++ hd_drops t0 hd ++ concat (map (vdrops t0) rest) = [] /\
      match take_eval t0 cmds vs [] with TDone _ rest' hd' d' | TPanic rest' hd' d' => rest' = rest /\ hd' = hd /\ d' = d | TBad => False end)
      as (t0 & c & vs & old & rest & hd & d & -> & E & Et).
    { inversion HA; subst; match goal with A : nth_error σ _ = Some (ASeq ?t0 ?c ?vs ?old), X : take_eval _ _ _ _ = _ ?rest ?hd ?d |- _ =>
        exists t0, c, vs, old, rest, hd, d; rewrite X; split; [congruence|]; split; [first [assumption|reflexivity]|auto] end. }
    cbn [val_ok owned_drops] in *. pose proof (take_balance t0 cmds vs [] Hrep (Forall_nil _)) as HB.
    destruct (take_eval t0 cmds vs []) as [outs rest' hd' d'|rest' hd' d'|]; [| |contradiction]; destruct Et as (-> & -> & ->);
      destruct HB as (lost & HB & HL); rewrite (HL Hf), app_nil_r in HB; apply app_eq_nil in E; destruct E as [-> E]; apply app_eq_nil in E; destruct E as [E1 E2];
      unfold rest_drops in HB; rewrite E1, E2 in HB; apply Permutation_sym, Permutation_nil in HB; apply app_eq_nil in HB; apply Hown, HB.
Qed.

(** ** a concrete program: a box with a struct and a sequence of tuples *)
Lemma reach_c4 : reach (fst c4) (snd c4) σ4 0.
Proof.
  assert (R1 : reach (fst c1) (snd c1) σ1 0).
  { apply (reach_step (w_start, []) [] 0 op1 OutUnit σ1 []); [now constructor| |vm_compute; reflexivity|].
    - apply L_new_box with i_ex; [apply t_ex_wf|apply p_ex_den| |vm_compute; reflexivity]. apply no_moves; [reflexivity|intros h []].
    - apply (A_new_box [] t_ex p_ex i_ex v_ex); [apply p_ex_den|vm_compute; reflexivity|vm_compute; reflexivity]. }
  assert (R2 : reach (fst c2) (snd c2) σ2 0).
  { apply (reach_step c1 σ1 0 op2 OutUnit σ2 []); [exact R1| |vm_compute; reflexivity|apply (A_new_seq σ1 t_tup true)].
    apply L_new_seq; [apply t_tup_wf|apply t_tup_nonzst]. }
  assert (D3 : den σ2 t_tup p3 (clone_init t_tup v_tup)) by (apply D_clone; [reflexivity|]; cbn; conc).
  assert (R3 : reach (fst c3) (snd c3) σ3 0).
  { apply (reach_step c2 σ2 0 op3 OutUnit σ3 []); [exact R2| |vm_compute; reflexivity|].
    - eapply L_push; [reflexivity|exact D3|]. apply no_moves; [reflexivity|]. intros h [<-|[]] [H|[]]. discriminate.
    - apply (A_push σ2 1 p3 t_tup true [] [] (clone_init t_tup v_tup) v_tup); [reflexivity|exact D3|vm_compute; reflexivity|vm_compute; reflexivity]. }
  assert (D4 : den σ3 t_tup p4 (IRec [ISized 0 (AMoveFrom []); ICopy 0 (VFix (by_ [1;2;3;4]))])).
  { unfold t_tup, p4. repeat constructor; try (vm_compute; reflexivity); try (unfold aok, elems_ok; cbn; conc). }
  apply (reach_step c3 σ3 0 op4 OutUnit σ4 []); [exact R3| |vm_compute; reflexivity|].
  - eapply L_push; [reflexivity|exact D4|]. apply no_moves; [reflexivity|]. intros h [<-|[]] [H|[]]. discriminate.
  - apply (A_push σ3 1 p4 t_tup true [v_tup] [] (IRec [ISized 0 (AMoveFrom []); ICopy 0 (VFix (by_ [1;2;3;4]))]) v_emp); [reflexivity|exact D4|vm_compute; reflexivity|vm_compute; reflexivity].
Qed.
(** A third and a fourth tuple are pushed: the third makes the storage grow, the fourth fits. *)
Definition c8 := step_cfg op3 c4.
Definition c9 := step_cfg op3 c8.
Definition σ8 : list aval := [ABox t_ex v_ex; ASeq t_tup true [v_tup; v_emp; v_tup] []].
Lemma den_op3 vs : den [ABox t_ex v_ex; ASeq t_tup true vs []] t_tup p3 (clone_init t_tup v_tup).
Proof. apply D_clone; [reflexivity|]. cbn. conc. Qed.
Lemma allowed_op3 vs : allowed [ABox t_ex v_ex; ASeq t_tup true vs []] op3.
Proof. eapply L_push; [reflexivity|apply den_op3|]. apply no_moves; [reflexivity|]. intros h [<-|[]] [H|[]]. discriminate. Qed.
Lemma reach_c8 : reach (fst c8) (snd c8) σ8 0.
Proof.
  apply (reach_step c4 σ4 0 op3 OutUnit σ8 []); [apply reach_c4|apply allowed_op3|vm_compute; reflexivity|].
  apply (A_push σ4 1 p3 t_tup true [v_tup; v_emp] [] (clone_init t_tup v_tup) v_tup); [reflexivity|apply den_op3|vm_compute; reflexivity|vm_compute; reflexivity].
Qed.
Lemma step_ok o c r : out_of (exec o c) = Some r -> exec o (fst c, snd c) = Ok r (fst (step_cfg o c), snd (step_cfg o c)).
Proof.
  destruct c as [w sl]. unfold step_cfg. cbn [fst snd]. destruct (exec o (w, sl)) as [x [w' sl']| |]; cbn; try discriminate. intros H. now injection H as ->.
Qed.
Definition addr_of (r : res world (vty * N)) : option N := match r with Ok (_, a) _ => Some a | _ => None end.
Lemma resolved w sl σ n pl t v a : reach w sl σ n -> at_place σ pl = Some (t, v) -> addr_of (resolve sl pl w) = Some a -> resolve sl pl w = Ok (t, a) w.
Proof. intros HR Hp Ha. destruct (C55_address w sl σ n pl t v HR Hp) as (a' & _ & E). rewrite E in *. cbn in Ha. congruence. Qed.
Definition pl_in : place := PlObj 0 (PFld 4 (PFld 0 PHere)).
(** A part of the struct in the box is referred to while the sequence grows. *)
Example C55_meets :
  reach (fst c4) (snd c4) σ4 0 /\ allowed σ4 op3 /\ ~ disturbs op3 (place_handle pl_in) /\
  ends (exec op3 (fst c4, snd c4)) (Done OutUnit) (fst c8) (snd c8) /\
  at_place σ4 pl_in = Some (TArray f_box LU8, VArr [h2; h3]) /\
  quiet (place_handle pl_in) (fst c4) (snd c4) σ4 (fst c8) (snd c8) σ8 /\
  addr_of (resolve (snd c4) pl_in (fst c4)) <> None /\
  vdrops (TArray f_box LU8) (VArr [h2; h3]) <> [] /\ 0 < vsize (TArray f_box LU8) (VArr [h2; h3]) /\
  drops_of (w_log (fst c8)) = drops_of (w_log (fst c4)) /\ ~ relocates op3 (place_handle pl_in) /\ ~ lets_go op3 (place_handle pl_in).
Proof.
  assert (Hd : ~ disturbs op3 (place_handle pl_in)) by (intros [H|[]]; discriminate).
  assert (He : ends (exec op3 (fst c4, snd c4)) (Done OutUnit) (fst c8) (snd c8)) by (apply step_ok; vm_compute; reflexivity).
  split; [apply reach_c4|]. split; [apply allowed_op3|]. split; [exact Hd|]. split; [exact He|]. split; [reflexivity|].
  split; [|split; [vm_compute; discriminate|]; split; [discriminate|]; split; [vm_compute; reflexivity|]; split; [vm_compute; reflexivity|]; split; [exact Hd|intros []]].
  eapply Q_step; [apply Q_start|apply allowed_op3|exact Hd|exact He|].
  apply (A_push σ4 1 p3 t_tup true [v_tup; v_emp] [] (clone_init t_tup v_tup) v_tup); [reflexivity|apply den_op3|vm_compute; reflexivity|vm_compute; reflexivity].
Qed.
(** Elements stay when the fourth tuple is pushed. *)
Example C55_push_meets : exists s,
  reach (fst c8) (snd c8) σ8 0 /\ allowed σ8 op3 /\ nth_error (snd c8) 1 = Some (SSeq t_tup true s) /\
  den σ8 t_tup p3 (clone_init t_tup v_tup) /\
  total t_tup [v_tup; v_emp; v_tup] + ceil_div (isize t_tup (clone_init t_tup v_tup)) (sp_align t_tup) <= seq_capacity s /\
  ends (exec op3 (fst c8, snd c8)) (Done OutUnit) (fst c9) (snd c9) /\
  at_place σ8 (PlElem 1 2 (PFld 0 PHere)) = Some (TArray f_box LU8, VArr [h2; h3]) /\
  addr_of (resolve (snd c8) (PlElem 1 2 (PFld 0 PHere)) (fst c8)) = addr_of (resolve (snd c9) (PlElem 1 2 (PFld 0 PHere)) (fst c9)).
Proof.
  eexists. split; [apply reach_c8|]. split; [apply allowed_op3|]. split; [vm_compute; reflexivity|]. split; [apply den_op3|].
  split; [vm_compute; discriminate|]. split; [apply step_ok; vm_compute; reflexivity|]. split; [reflexivity|vm_compute; reflexivity].
Qed.

(** ** what is false *)
(** Without the last condition of [C55_memory_kept] this does not hold, although nothing in the types
    keeps client code from pinning these objects: iter_mut() and as_mut() hand out Pin<&mut T>. *)
(* 1: pushing to a sequence frees the memory of its elements when the storage grows *)
Theorem C55_seq_growth_refuted : exists w sl σ n h p w' sl' pl t v a a',
  reach w sl σ n /\ allowed σ (OPush h p) /\ place_handle pl = h /\
  at_place σ pl = Some (t, v) /\ resolve sl pl w = Ok (t, a) w /\ vdrops t v <> [] /\
  exec (OPush h p) (w, sl) = Ok OutUnit (w', sl') /\
  drops_of (w_log w') = drops_of (w_log w) /\
  (* the memory is gone, the object is elsewhere *)
  ~ allocated w' a 1 /\ exec (ORead pl) (w', sl') = Ok (OutVal v) (w', sl') /\ resolve sl' pl w' = Ok (t, a') w' /\ a' <> a.
Proof.
  exists (fst c4), (snd c4), σ4, 0%nat, 1%nat, p3, (fst c8), (snd c8), (PlElem 1 0 PHere), t_tup, v_tup, 12288, 16384.
  split; [apply reach_c4|]. split; [apply allowed_op3|]. split; [reflexivity|]. split; [reflexivity|].
  split; [apply (resolved _ _ _ _ _ _ v_tup _ reach_c4); [reflexivity|vm_compute; reflexivity]|]. split; [discriminate|].
  split; [apply (step_ok (OPush 1 p3) c4); vm_compute; reflexivity|]. split; [vm_compute; reflexivity|].
  split; [|split; [exact (proj1 (C45_reads_back _ _ _ _ reach_c8) (PlElem 1 0 PHere) t_tup v_tup eq_refl)|split; [apply (resolved _ _ _ _ _ _ v_tup _ reach_c8); [reflexivity|vm_compute; reflexivity]|discriminate]]].
  intros (b & Hb & H1 & H2). vm_compute in Hb. repeat (destruct Hb as [<-|Hb]; [cbn [b_base b_size] in *; lia|]). destruct Hb.
Qed.
(* 2: so does a box that becomes the initializer of another object *)
Theorem C55_box_moved_refuted : exists w sl σ n t v a o w' sl' a',
  reach w sl σ n /\ o = ONewBox t (PBox 0) /\ allowed σ o /\
  at_place σ (PlObj 0 PHere) = Some (t, v) /\ resolve sl (PlObj 0 PHere) w = Ok (t, a) w /\ vdrops t v <> [] /\
  exec o (w, sl) = Ok OutUnit (w', sl') /\
  drops_of (w_log w') = drops_of (w_log w) /\
  ~ allocated w' a 1 /\ exec (ORead (PlObj 1 PHere)) (w', sl') = Ok (OutVal v) (w', sl') /\ resolve sl' (PlObj 1 PHere) w' = Ok (t, a') w' /\ a' <> a.
Proof.
  set (o := ONewBox t_ex (PBox 0)).
  exists (fst c1), (snd c1), σ1, 0%nat, t_ex, v_ex, 4096, o, (fst (step_cfg o c1)), (snd (step_cfg o c1)), 8192.
  assert (R1 : reach (fst c1) (snd c1) σ1 0).
  { apply (reach_step (w_start, []) [] 0 op1 OutUnit σ1 []); [now constructor| |vm_compute; reflexivity|].
    - apply L_new_box with i_ex; [apply t_ex_wf|apply p_ex_den| |vm_compute; reflexivity]. apply no_moves; [reflexivity|intros h []].
    - apply (A_new_box [] t_ex p_ex i_ex v_ex); [apply p_ex_den|vm_compute; reflexivity|vm_compute; reflexivity]. }
  assert (Hal : allowed σ1 o).
  { apply L_new_box with (IBox 0 v_ex); [apply t_ex_wf|apply D_box; reflexivity| |vm_compute; reflexivity].
    split; [repeat constructor; intros []|]. split; [intros h Hh; split; intros []|intros h []]. }
  assert (R2 : reach (fst (step_cfg o c1)) (snd (step_cfg o c1)) [ADead; ABox t_ex v_ex] 0).
  { apply (reach_step c1 σ1 0 o OutUnit [ADead; ABox t_ex v_ex] []); [exact R1|exact Hal|vm_compute; reflexivity|].
    apply (A_new_box σ1 t_ex (PBox 0) (IBox 0 v_ex) v_ex); [apply D_box; reflexivity|vm_compute; reflexivity|vm_compute; reflexivity]. }
  split; [exact R1|]. split; [reflexivity|]. split; [exact Hal|].
  split; [reflexivity|]. split; [apply (resolved _ _ _ _ _ _ v_ex _ R1); [reflexivity|vm_compute; reflexivity]|]. split; [discriminate|].
  split; [apply (step_ok o c1); vm_compute; reflexivity|]. split; [vm_compute; reflexivity|].
  split; [|split; [exact (proj1 (C45_reads_back _ _ _ _ R2) (PlObj 1 PHere) t_ex v_ex eq_refl)|split; [apply (resolved _ _ _ _ _ _ v_ex _ R2); [reflexivity|vm_compute; reflexivity]|discriminate]]].
  intros (b & Hb & H1 & H2). vm_compute in Hb. repeat (destruct Hb as [<-|Hb]; [cbn [b_base b_size] in *; lia|]). destruct Hb.
Qed.
(* 3: an element that take_elems() gave as an Owned - which hands out Pin<&mut T> - is forgotten, not dropped; its memory
   is then used for another element *)
Theorem C55_forgotten_reused_refuted : exists w sl σ n h p r w1 sl1 w2 sl2 t v v' a,
  reach w sl σ n /\ allowed σ (OTake h [TNext; TForget 0] false) /\
  at_place σ (PlElem h 0 PHere) = Some (t, v) /\ resolve sl (PlElem h 0 PHere) w = Ok (t, a) w /\ vdrops t v <> [] /\
  exec (OTake h [TNext; TForget 0] false) (w, sl) = Ok r (w1, sl1) /\ exec (OPush h p) (w1, sl1) = Ok OutUnit (w2, sl2) /\
  (* no destructor has run; a different object is at the same address *)
  drops_of (w_log w2) = drops_of (w_log w) /\
  resolve sl2 (PlElem h 0 PHere) w2 = Ok (t, a) w2 /\ exec (ORead (PlElem h 0 PHere)) (w2, sl2) = Ok (OutVal v') (w2, sl2) /\ v' <> v.
Proof.
  set (o1 := OTake 1 [TNext; TForget 0] false). set (d1 := step_cfg o1 c4). set (d2 := step_cfg op4 d1).
  set (old4 := starts t_tup [v_tup; v_emp] 0 ++ [total t_tup [v_tup; v_emp]]).
  assert (Hal : allowed σ4 o1) by (eapply L_take; [reflexivity|vm_compute; discriminate]).
  assert (R1 : reach (fst d1) (snd d1) [ABox t_ex v_ex; ASeq t_tup true [] old4] 0).
  { apply (reach_step c4 σ4 0 o1 (OutList [OutBool true; OutUnit]) _ []); [apply reach_c4|exact Hal|vm_compute; reflexivity|].
    apply (A_take σ4 1 [TNext; TForget 0] false t_tup true [v_tup; v_emp] [] [OutBool true; OutUnit] [v_emp] [None] []); reflexivity. }
  assert (D4 : den [ABox t_ex v_ex; ASeq t_tup true [] old4] t_tup p4 (IRec [ISized 0 (AMoveFrom []); ICopy 0 (VFix (by_ [1;2;3;4]))])).
  { unfold t_tup, p4. repeat constructor; try (vm_compute; reflexivity); try (unfold aok, elems_ok; cbn; conc). }
  assert (R2 : reach (fst d2) (snd d2) [ABox t_ex v_ex; ASeq t_tup true [v_emp] old4] 0).
  { apply (reach_step d1 [ABox t_ex v_ex; ASeq t_tup true [] old4] 0 op4 OutUnit _ []); [exact R1| |vm_compute; reflexivity|].
    - eapply L_push; [reflexivity|exact D4|]. apply no_moves; [reflexivity|]. intros h [<-|[]] [H|[]]. discriminate.
    - apply (A_push [ABox t_ex v_ex; ASeq t_tup true [] old4] 1 p4 t_tup true [] old4 (IRec [ISized 0 (AMoveFrom []); ICopy 0 (VFix (by_ [1;2;3;4]))]) v_emp);
        [reflexivity|exact D4|vm_compute; reflexivity|vm_compute; reflexivity]. }
  exists (fst c4), (snd c4), σ4, 0%nat, 1%nat, p4, (OutList [OutBool true; OutUnit]), (fst d1), (snd d1), (fst d2), (snd d2), t_tup, v_tup, v_emp, 12288.
  split; [apply reach_c4|]. split; [exact Hal|]. split; [reflexivity|].
  split; [apply (resolved _ _ _ _ _ _ v_tup _ reach_c4); [reflexivity|vm_compute; reflexivity]|]. split; [discriminate|].
  split; [apply (step_ok o1 c4); vm_compute; reflexivity|]. split; [apply (step_ok op4 d1); vm_compute; reflexivity|]. split; [vm_compute; reflexivity|].
  split; [apply (resolved _ _ _ _ _ _ v_emp _ R2); [reflexivity|vm_compute; reflexivity]|].
  split; [exact (proj1 (C45_reads_back _ _ _ _ R2) (PlElem 1 0 PHere) t_tup v_emp eq_refl)|discriminate].
Qed.
