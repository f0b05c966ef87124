(** PropsProgram.v - C45: whole programs over the safe API. *)
From Verif Require Import ProgSteps.

(** Any program that has so far only done allowed things (see [allowed] and [reach] in ProgSpec.v)
    and now does one more: the operation does not run into undefined behaviour, returns or panics as
    the functional account says, drops exactly the values the account says, and leaves the program in
    a state the account describes. The only exception: VBox::new when the global allocator refuses
    (vbox.rs:54 does not check for null, see C28). *)
Theorem C45_program_safe : forall w sl σ n o,
  reach w sl σ n -> allowed σ o ->
  match exec o (w, sl) with
  | Ok r (w', sl') => exists σ' evs, w_log w' = w_log w ++ evs /\ astep σ o (Done r) σ' (drops_of evs) /\
      reach w' sl' σ' (match o with OForget _ => S n | _ => n end)
  | Panic (w', sl') => exists σ' evs n', w_log w' = w_log w ++ evs /\ astep σ o Panicked σ' (drops_of evs) /\ reach w' sl' σ' n' /\
      n' = match o with ONewBox _ _ => S n | _ => n end
  | UB u => u = UNull /\ exists t p i, o = ONewBox t p /\ den σ t p i /\
      forall a, w_alloc w (w_tick w) (isize t i) (sp_align t) = Some a ->
        valid_answer (w_blocks w) a (isize t i) (sp_align t) = false
  end.
Proof.
  intros w sl σ n o HR Hal. pose proof (exec_ok w sl σ n o (reach_inv _ _ _ _ HR) Hal) as H.
  destruct (exec o (w, sl)) as [r [w' sl']|[w' sl']|u] eqn:E; cbn [step_res] in H; unfold step_ok in H.
  - destruct H as (σ' & evs & A & L & _). exists σ', evs. split; [exact L|]. split; [exact A|]. eapply R_done; eauto.
  - destruct H as (σ' & evs & A & L & _). eexists σ', evs, _. split; [exact L|]. split; [exact A|]. split; [|reflexivity]. eapply R_panicked; eauto.
  - exact H.
Qed.

(** Everything the program holds reads back as the account says, and reading changes nothing. *)
Theorem C45_reads_back : forall w sl σ n,
  reach w sl σ n ->
  (forall pl t v, at_place σ pl = Some (t, v) -> exec (ORead pl) (w, sl) = Ok (OutVal v) (w, sl)) /\
  (forall h t chk vs old, nth_error σ h = Some (ASeq t chk vs old) ->
     exec (OReadSeq h) (w, sl) = Ok (OutVals vs) (w, sl) /\ exec (OLen h) (w, sl) = Ok (OutNum (len vs)) (w, sl)).
Proof.
  intros w sl σ n HR. pose proof (reach_inv _ _ _ _ HR) as HI. split.
  - intros pl t v Hp. destruct (resolve_ok w sl σ n pl t v HI Hp) as (a & s0 & v0 & E & Hwf & Ho & _).
    cbn [exec]. unfold call. step E. cbn [fst snd]. now rewrite (view_ok t w a v Hwf Ho).
  - intros h t chk vs old Hh. destruct (seq_slot w sl σ n h t chk vs old HI Hh) as (s & Hah & Hwf & Hz & Hat & Hbits).
    cbn [exec]. rewrite (proj1 Hah). unfold call. rewrite (seq_contents_ok w t chk s vs Hwf (proj1 HI) Hat). cbn [fst snd].
    split; [reflexivity|]. unfold seq_len. now rewrite (proj1 Hat).
Qed.

(** Live allocations are disjoint, every box and sequence owns a live heap allocation of its own, and
    every live heap allocation is owned by a value the program holds, except for at most one per
    VBox::new whose initializer panicked and one per value given to mem::forget. *)
Theorem C45_no_leak : forall w sl σ n,
  reach w sl σ n ->
  wf_blocks (w_blocks w) /\
  (forall h s a, nth_error sl h = Some s -> In a (slot_bases s) ->
     exists b, In b (w_blocks w) /\ b_base b = a /\ b_heap b = true) /\
  (forall h h' s s' a, nth_error sl h = Some s -> nth_error sl h' = Some s' -> In a (slot_bases s) -> In a (slot_bases s') -> h = h') /\
  exists leaked, (length leaked <= n)%nat /\
    forall b, In b (w_blocks w) -> b_heap b = true ->
      In (b_base b) leaked \/ exists h s, nth_error sl h = Some s /\ In (b_base b) (slot_bases s).
Proof.
  intros w sl σ n HR. pose proof (reach_inv _ _ _ _ HR) as HI. pose proof HI as (Hbl & Hlen & Hrep & Hdis & L & HL & Hleak).
  assert (Hat : forall h s, nth_error sl h = Some s -> exists v, at_h sl σ h s v).
  { intros h s Hs. assert (h < length σ)%nat by (rewrite <- Hlen; apply nth_error_Some; congruence).
    destruct (nth_error σ h) as [v|] eqn:Ev; [exists v; split; auto|apply nth_error_None in Ev; lia]. }
  assert (Hb : forall s v, rep w s v -> forall a, In a (slot_bases s) -> exists b, In b (hblocks s v) /\ b_base b = a /\ b_heap b = true).
  { intros s v Hr a Ha. destruct s as [t p|t p|t c s|], v as [t' x|t' x|t' c' vs old|]; cbn [rep slot_bases hblocks] in *; try contradiction.
    - destruct Ha as [<-|[]]. eexists. split; [left; reflexivity|]. split; reflexivity.
    - unfold seq_base in Ha. destruct (s_cap s =? 0); [contradiction|]. destruct Ha as [<-|[]]. eexists. split; [left; reflexivity|]. split; reflexivity. }
  split; [exact Hbl|]. split; [|split].
  - intros h s a Hs Ha. destruct (Hat h s Hs) as (v & Hah). destruct (Hb s v (Hrep _ _ _ Hah) a Ha) as (b & B1 & B2 & B3).
    exists b. split; [eapply rep_blocks; eauto|auto].
  - intros h h' s s' a Hs Hs' Ha Ha'. destruct (Hat h s Hs) as (v & Hah), (Hat h' s' Hs') as (v' & Hah').
    destruct (Hb s v (Hrep _ _ _ Hah) a Ha) as (b & B1 & B2 & B3), (Hb s' v' (Hrep _ _ _ Hah') a Ha') as (b' & B1' & B2' & B3').
    eapply (Hdis h h' s v s' v' a); auto; unfold hbases; apply in_map_iff; eauto.
  - exists L. split; [exact HL|]. intros b Hin Hh. destruct (Hleak b Hin Hh) as [H|(h & s & v & Hah & Hx)]; [left; exact H|right].
    exists h, s. split; [apply Hah|]. pose proof (hblock_base w s v b Hbl (Hrep _ _ _ Hah) Hin Hx) as Hb'.
    destruct s as [t p|t p|t c s|], v as [t' x|t' x|t' c' vs old|]; cbn [slot_bases hblocks] in *; try contradiction.
    + destruct Hb' as [<-|[]]. left. reflexivity.
    + destruct (vsize t x =? 0); [contradiction|]. destruct Hb' as [<-|[]]. discriminate.
    + unfold seq_base. destruct (s_cap s =? 0); [contradiction|]. destruct Hb' as [<-|[]]. left. reflexivity.
Qed.
(** When a program in which no VBox::new panicked and nothing was forgotten has given up all its boxes and sequences, no heap
    allocation is left. *)
Theorem C45_all_freed : forall w sl σ,
  reach w sl σ 0 -> (forall h s, nth_error sl h = Some s -> slot_bases s = []) ->
  forall b, In b (w_blocks w) -> b_heap b = false.
Proof.
  intros w sl σ HR Hd b Hb. destruct (b_heap b) eqn:Hh; [|reflexivity].
  destruct (C45_no_leak w sl σ 0 HR) as (_ & _ & _ & L & HL & H). destruct L; [|cbn in HL; lia].
  destruct (H b Hb Hh) as [[]|(h & s & Hs & Hin)]. rewrite (Hd h s Hs) in Hin. destruct Hin.
Qed.

(** ** a concrete program *)
Definition out_of (r : res config out) : option out := match r with Ok o _ => Some o | _ => None end.
Definition cfg_of (r : res config out) : config := match r with Ok _ c | Panic c => c | UB _ => (w_start, []) end.
Lemma reach_exec w sl σ n o r σ' d : reach w sl σ n -> allowed σ o -> out_of (exec o (w, sl)) = Some r ->
  astep σ o (Done r) σ' d -> reach (fst (cfg_of (exec o (w, sl)))) (snd (cfg_of (exec o (w, sl)))) σ' (given_up o n).
Proof.
  intros HR Hal Ho Hs. destruct (exec o (w, sl)) as [x [w' sl']|[w' sl']|] eqn:E; try discriminate. injection Ho as ->.
  cbn [cfg_of fst snd]. eapply R_done; eauto.
Qed.
Definition p_ex : pinit :=
  PFields [PFixed (by_ [2]); PFixed h1; PWrap (PSized 3 (ACopyFrom [by_ [97]; by_ [98]; by_ [99]]));
           PArrF (AFillSeq (fun i => Some (by_ [i; 0])));
           PFields [PSized 2 (AMoveFrom [h2; h3]); PFixed (by_ [1;2;3;4])]].
Definition v_tup : vval := VRec [VArr [h2; h3]; VFix (by_ [1;2;3;4])].
Lemma p_ex_den σ : den σ t_ex p_ex i_ex.
Proof.
  unfold t_ex, p_ex, i_ex, TStr, t_tup. repeat constructor; try (vm_compute; reflexivity); try (unfold aok, elems_ok; cbn; conc).
  intros i v H. injection H as <-. reflexivity.
Qed.
Lemma t_tup_nonzst : nonzst t_tup.
Proof.
  intros v Hv. destruct v as [| | |vs]; try contradiction. destruct vs as [|v vs]; try contradiction. destruct vs as [|v2 vs]; [cbn in Hv; tauto|].
  unfold vsize. cbn [t_tup vshape map sp_size sp_end].
  match goal with |- 0 < ?a + ?b => set (x := a); cut (0 < b); [lia|] end. cbn. lia.
Qed.
Definition op1 := ONewBox t_ex p_ex.
Definition op2 := ONewSeq t_tup true.
Definition p3 : pinit := PClone (PlObj 0 (PFld 4 PHere)).
Definition op3 := OPush 1 p3.
Definition p4 : pinit := PFields [PSized 0 (AMoveFrom []); PCopy (PlObj 0 (PFld 4 (PFld 1 PHere)))].
Definition op4 := OPush 1 p4.
Definition op5 := OAssign (PlElem 1 0 (PFld 0 PHere)) (PIdx 1) h1.
Definition op6 := ODrop 0.
Definition step_cfg (o : op) (c : config) : config := cfg_of (exec o c).

Definition c1 := step_cfg op1 (w_start, []).
Definition c2 := step_cfg op2 c1.
Definition c3 := step_cfg op3 c2.
Definition c4 := step_cfg op4 c3.
Definition c5 := step_cfg op5 c4.
Definition c6 := step_cfg op6 c5.
Definition v_emp : vval := VRec [VArr []; VFix (by_ [1;2;3;4])].
Definition σ1 : list aval := [ABox t_ex v_ex].
Definition σ2 : list aval := [ABox t_ex v_ex; ASeq t_tup true [] []].
Definition σ3 : list aval := [ABox t_ex v_ex; ASeq t_tup true [v_tup] []].
Definition σ4 : list aval := [ABox t_ex v_ex; ASeq t_tup true [v_tup; v_emp] []].
Definition σ5 : list aval := [ABox t_ex v_ex; ASeq t_tup true [VRec [VArr [h2; h1]; VFix (by_ [1;2;3;4])]; v_emp] []].
Definition σ6 : list aval := [ADead; ASeq t_tup true [VRec [VArr [h2; h1]; VFix (by_ [1;2;3;4])]; v_emp] []].
Lemma reach_step c σ n o r σ' d : reach (fst c) (snd c) σ n -> allowed σ o -> out_of (exec o c) = Some r ->
  astep σ o (Done r) σ' d -> reach (fst (step_cfg o c)) (snd (step_cfg o c)) σ' (given_up o n).
Proof. destruct c as [w sl]. apply reach_exec. Qed.
Lemma no_moves p tgt : moves p = [] -> (forall h, In h (borrows p) -> ~ In h tgt) -> borrow_ok p tgt.
Proof. intros H1 H2. unfold borrow_ok. rewrite H1. split; [constructor|]. split; [intros h []|exact H2]. Qed.
Example C45_meets : reach (fst c6) (snd c6) σ6 0.
Proof.
  assert (R1 : reach (fst c1) (snd c1) σ1 0).
  { apply (reach_step (w_start, []) [] 0 op1 OutUnit σ1 []); [now constructor| |vm_compute; reflexivity|].
    - apply L_new_box with i_ex; [apply t_ex_wf|apply p_ex_den| |vm_compute; reflexivity]. apply no_moves; [reflexivity|intros h []].
    - apply (A_new_box [] t_ex p_ex i_ex v_ex); [apply p_ex_den|vm_compute; reflexivity|vm_compute; reflexivity]. }
  assert (R2 : reach (fst c2) (snd c2) σ2 0).
  { apply (reach_step c1 σ1 0 op2 OutUnit σ2 []); [exact R1| |vm_compute; reflexivity|apply (A_new_seq σ1 t_tup true)].
    apply L_new_seq; [apply t_tup_wf|apply t_tup_nonzst]. }
  assert (D3 : den σ2 t_tup p3 (clone_init t_tup v_tup)).
  { apply D_clone; [reflexivity|]. cbn. conc. }
  assert (R3 : reach (fst c3) (snd c3) σ3 0).
  { apply (reach_step c2 σ2 0 op3 OutUnit σ3 []); [exact R2| |vm_compute; reflexivity|].
    - eapply L_push; [reflexivity|exact D3|]. apply no_moves; [reflexivity|]. intros h [<-|[]] [H|[]]. discriminate.
    - apply (A_push σ2 1 p3 t_tup true [] [] (clone_init t_tup v_tup) v_tup); [reflexivity|exact D3|vm_compute; reflexivity|vm_compute; reflexivity]. }
  assert (D4 : den σ3 t_tup p4
                 (IRec [ISized 0 (AMoveFrom []); ICopy 0 (VFix (by_ [1;2;3;4]))])).
  { unfold t_tup, p4. repeat constructor; try (vm_compute; reflexivity); try (unfold aok, elems_ok; cbn; conc). }
  assert (R4 : reach (fst c4) (snd c4) σ4 0).
  { apply (reach_step c3 σ3 0 op4 OutUnit σ4 []); [exact R3| |vm_compute; reflexivity|].
    - eapply L_push; [reflexivity|exact D4|]. apply no_moves; [reflexivity|]. intros h [<-|[]] [H|[]]. discriminate.
    - apply (A_push σ3 1 p4 t_tup true [v_tup] [] (IRec [ISized 0 (AMoveFrom []); ICopy 0 (VFix (by_ [1;2;3;4]))]) v_emp); [reflexivity|exact D4|vm_compute; reflexivity|vm_compute; reflexivity]. }
  assert (R5 : reach (fst c5) (snd c5) σ5 0).
  { apply (reach_step c4 σ4 0 op5 OutUnit σ5 [h3]); [exact R4| |vm_compute; reflexivity|].
    - eapply L_assign; [reflexivity|reflexivity|reflexivity].
    - apply (A_assign σ4 (PlElem 1 0 (PFld 0 PHere)) (PIdx 1) h1 (TArray f_box LU8) (VArr [h2; h3]) f_box h3); reflexivity. }
  apply (reach_step c5 σ5 0 op6 OutUnit σ6 [h1; h2; h3]); [exact R5| |vm_compute; reflexivity|].
  - eapply L_drop; [reflexivity|discriminate].
  - apply (A_drop σ5 0 (ABox t_ex v_ex)); [reflexivity|discriminate].
Qed.
(** It has run these destructors, in this order; then dropping the sequence frees everything. *)
Example C45_meets_drops : drops_of (w_log (fst c6)) = [h3; h1; h2; h3].
Proof. vm_compute. reflexivity. Qed.
Example C45_meets_end :
  let c7 := step_cfg (ODrop 1) c6 in
  drops_of (w_log (fst c7)) = [h3; h1; h2; h3; h2; h1] /\ filter b_heap (w_blocks (fst c7)) = [].
Proof. vm_compute. auto. Qed.
(** It goes on: element 1 is looked up by its offset; the offset of an element is that offset; then the
    elements are taken out one by one, the first is changed, the second forgotten. *)
Definition v_st : vval := VRec [VArr [h2; h1]; VFix (by_ [1;2;3;4])].
Definition o_st : N := nth 1 (starts t_tup [v_st; v_emp] 0) 0.
Definition cmds_ex : list tcmd := [TLen; TNext; TRead 0; TAssign 0 (PFld 0 (PIdx 1)) h3; TNext; TForget 1; TNext; TLen].
Definition op7 := OTake 1 cmds_ex false.
Definition c7 := step_cfg op7 c6.
Example C45_meets_offsets :
  at_place σ6 (PlOff 1 false o_st (PFld 1 PHere)) = Some (TFixed f_u32, VFix (by_ [1;2;3;4])) /\
  out_of (exec (ORead (PlOff 1 false o_st PHere)) c6) = Some (OutVal v_emp) /\
  out_of (exec (OOffsetOf 1 (PlElem 1 1 PHere)) c6) = Some (OutNum o_st) /\
  out_of (exec (OOffsetValid 1 o_st) c6) = Some (OutBool true) /\
  out_of (exec (OOffsetValid 1 (o_st + 1)) c6) = Some (OutBool false).
Proof. vm_compute. repeat split. Qed.
Example C45_meets_take : reach (fst c7) (snd c7) [ADead; ASeq t_tup true [] (starts t_tup [v_st; v_emp] 0 ++ [total t_tup [v_st; v_emp]])] 0.
Proof.
  apply (reach_step c6 σ6 0 op7 (OutList [OutNum 2; OutBool true; OutVal v_st; OutUnit; OutBool true; OutUnit; OutBool false; OutNum 0]) _ [h1; h2; h3]);
    [apply C45_meets| |vm_compute; reflexivity|].
  - eapply L_take; [reflexivity|]. vm_compute. discriminate.
  - apply (A_take σ6 1 cmds_ex false t_tup true [v_st; v_emp] [] _ [] [Some (VRec [VArr [h2; h3]; VFix (by_ [1;2;3;4])]); None] [h1]); reflexivity.
Qed.
Example C45_meets_take_drops : drops_of (w_log (fst c7)) = [h3; h1; h2; h3; h1; h2; h3].
Proof. vm_compute. reflexivity. Qed.
(** A box that is forgotten stays allocated; nothing is destroyed. *)
Example C45_meets_forget : reach (fst (step_cfg (OForget 0) c1)) (snd (step_cfg (OForget 0) c1)) [ADead] 1 /\
  drops_of (w_log (fst (step_cfg (OForget 0) c1))) = [] /\ length (filter b_heap (w_blocks (fst (step_cfg (OForget 0) c1)))) = 1%nat.
Proof.
  split; [|vm_compute; auto]. apply (reach_step c1 σ1 0 (OForget 0) OutUnit [ADead] []).
  - apply (reach_step (w_start, []) [] 0 op1 OutUnit σ1 []); [now constructor| |vm_compute; reflexivity|].
    + apply L_new_box with i_ex; [apply t_ex_wf|apply p_ex_den| |vm_compute; reflexivity]. apply no_moves; [reflexivity|intros h []].
    + apply (A_new_box [] t_ex p_ex i_ex v_ex); [apply p_ex_den|vm_compute; reflexivity|vm_compute; reflexivity].
  - eapply L_forget; [reflexivity|discriminate].
  - vm_compute. reflexivity.
  - apply (A_forget σ1 0).
Qed.
(** Length expressions may panic: S { n, m: u8, h: Box<_>, xs: [u16; n - m] }. A box with (5, 3) is built;
    new controllers (2, 3) panic and change nothing, (9, 7) are accepted; building a box with (2, 3)
    panics, and the Box field h of that initializer is destroyed, once. *)
Definition p_diff (a c : N) : pinit :=
  PFields [PFixed (by_ [a]); PFixed (by_ [c]); PFixed h1; PArrF (AFillSeq (fun i => Some (by_ [i; 0])))].
Lemma p_diff_den σ a c : den σ t_diff (p_diff a c) (i_diff a c).
Proof.
  unfold t_diff, p_diff, i_diff. repeat constructor; try (vm_compute; reflexivity); try (unfold aok, elems_ok; cbn; conc).
  intros i v H. injection H as <-. reflexivity.
Qed.
Definition pan_of {A} (r : res config A) : option config := match r with Panic c => Some c | _ => None end.
Definition d1 := step_cfg (ONewBox t_diff (p_diff 5 3)) (w_start, []).
Definition d2 := step_cfg (OControllers (PlObj 0 PHere) [by_ [9]; by_ [7]]) d1.
Definition diff_ctrl (o : op) (c : config) : config := match pan_of (exec o c) with Some c' => c' | None => c end.
Definition d3 := diff_ctrl (OControllers (PlObj 0 PHere) [by_ [2]; by_ [3]]) d2.
Definition d4 := diff_ctrl (ONewBox t_diff (p_diff 2 3)) d3.
Definition v_diff (a c : N) : vval := VRec [VFix (by_ [a]); VFix (by_ [c]); VFix h1; VArr [by_ [0;0]; by_ [1;0]]].
Lemma reach_panic c σ n o σ' d : reach (fst c) (snd c) σ n -> allowed σ o -> pan_of (exec o c) <> None ->
  astep σ o Panicked σ' d -> reach (fst (diff_ctrl o c)) (snd (diff_ctrl o c)) σ' (lost_by o n).
Proof.
  destruct c as [w sl]. unfold diff_ctrl. intros R Hal Hp A. destruct (exec o (w, sl)) as [r c'|[w' sl']|u] eqn:E; try (cbn in Hp; congruence).
  cbn [pan_of fst snd]. eapply R_panicked; eauto.
Qed.
Example C45_meets_length_panics :
  reach (fst d4) (snd d4) [ABox t_diff (v_diff 9 7)] 1 /\ drops_of (w_log (fst d4)) = [h1] /\
  pan_of (exec (OControllers (PlObj 0 PHere) [by_ [2]; by_ [3]]) d2) <> None /\
  pan_of (exec (ONewBox t_diff (p_diff 2 3)) d3) <> None.
Proof.
  assert (N1 : pan_of (exec (OControllers (PlObj 0 PHere) [by_ [2]; by_ [3]]) d2) <> None) by (vm_compute; discriminate).
  assert (N2 : pan_of (exec (ONewBox t_diff (p_diff 2 3)) d3) <> None) by (vm_compute; discriminate).
  split; [|split; [vm_compute; reflexivity|split; assumption]].
  assert (Hd : t_diff = TRec KStruct 16 8 fs_diff) by reflexivity.
  apply (reach_panic d3 [ABox t_diff (v_diff 9 7)] 0 (ONewBox t_diff (p_diff 2 3)) _ [h1]); [| |exact N2|].
  - apply (reach_panic d2 [ABox t_diff (v_diff 9 7)] 0 (OControllers (PlObj 0 PHere) [by_ [2]; by_ [3]]) _ []); [| |exact N1|].
    + apply (reach_step d1 [ABox t_diff (v_diff 5 3)] 0 (OControllers (PlObj 0 PHere) [by_ [9]; by_ [7]]) (OutBool true) _ []).
      * apply (reach_step (w_start, []) [] 0 (ONewBox t_diff (p_diff 5 3)) OutUnit [ABox t_diff (v_diff 5 3)] []); [now constructor| |vm_compute; reflexivity|].
        -- apply L_new_box with (i_diff 5 3); [apply t_diff_wf|apply p_diff_den| |vm_compute; reflexivity]. apply no_moves; [reflexivity|intros h []].
        -- apply (A_new_box [] t_diff (p_diff 5 3) (i_diff 5 3) (v_diff 5 3)); [apply p_diff_den|vm_compute; reflexivity|vm_compute; reflexivity].
      * eapply L_controllers; [reflexivity|repeat constructor].
      * vm_compute. reflexivity.
      * apply (A_controllers [ABox t_diff (v_diff 5 3)] (PlObj 0 PHere) [by_ [9]; by_ [7]] 16 8 fs_diff vs_diff); [reflexivity|split; [vm_compute; reflexivity|exact I]|].
        split; [vm_compute; reflexivity|exact I].
    + eapply L_controllers; [reflexivity|repeat constructor].
    + eapply (A_controllers_panic [ABox t_diff (v_diff 9 7)] (PlObj 0 PHere) [by_ [2]; by_ [3]] 16 8 fs_diff); [reflexivity|].
      intros [H _]. vm_compute in H. discriminate.
  - apply L_new_box with (i_diff 2 3); [apply t_diff_wf|apply p_diff_den| |vm_compute; reflexivity]. apply no_moves; [reflexivity|intros h []].
  - apply (A_new_box_large [ABox t_diff (v_diff 9 7)] t_diff (p_diff 2 3) (i_diff 2 3)); [apply p_diff_den|vm_compute; reflexivity].
Qed.

(** ** C58: a slice of an object that the program holds, copied or cloned into a new object *)
(** What the new array should contain; [None]: a clone panics. *)
Definition taken_slice (f : fty) (cl : bool) (xs : list (list cell)) (lo k : N) : option (list (list cell)) :=
  let ys := firstn (N.to_nat k) (skipn (N.to_nat lo) xs) in if cl then clone_all f ys else Some ys.
Lemma slice_val σ f cl kd pl j lo k xs : 0 < f_align f ->
  elements_at σ pl j = Some (f, xs) -> lo + k <= len xs -> (cl = false -> f_drop f = false) -> k < len_lim kd ->
  exists ai, den σ (TArray f kd) (PSizedAt k cl pl j lo k) (ISized k ai) /\
    ival (TArray f kd) (ISized k ai) = option_map VArr (taken_slice f cl xs lo k) /\
    ilens (TArray f kd) (ISized k ai) = true /\ 0 < isize (TArray f kd) (ISized k ai).
Proof.
  intros Hpos He Hle Hd Hk.
  assert (Hl : len (firstn (N.to_nat k) (skipn (N.to_nat lo) xs)) = k).
  { unfold len in *. rewrite firstn_length, skipn_length. lia. }
  assert (Hp : forall ai, 0 < isize (TArray f kd) (ISized k ai)).
  { intros ai. unfold isize. cbn [ishape sp_size]. pose proof (up_ge (len_size kd) (f_align f) Hpos). destruct kd; cbn [len_size] in *; lia. }
  destruct cl.
  - exists (ACloneFrom (firstn (N.to_nat k) (skipn (N.to_nat lo) xs))). split; [apply D_sized_at; [eapply SD_clone; eauto|exact Hk]|].
    split; [|split; [reflexivity|apply Hp]]. unfold taken_slice. cbn [ival arun]. rewrite Hl, N.eqb_refl.
    destruct (gen_clone f (firstn (N.to_nat k) (skipn (N.to_nat lo) xs))) as [G _]. now rewrite G.
  - exists (ACopyFrom (firstn (N.to_nat k) (skipn (N.to_nat lo) xs))). split; [apply D_sized_at; [eapply SD_copy; eauto|exact Hk]|].
    split; [|split; [reflexivity|apply Hp]]. unfold taken_slice. cbn [ival arun fst snd]. rewrite Hl, N.eqb_refl. reflexivity.
Qed.
Lemma at_place_snoc σ x pl tv : at_place σ pl = Some tv -> at_place (σ ++ [x]) pl = Some tv.
Proof.
  assert (G : forall h v, nth_error σ h = Some v -> nth_error (σ ++ [x]) h = Some v).
  { intros h v H. rewrite nth_error_app1; [exact H|]. apply nth_error_Some. congruence. }
  unfold at_place. destruct pl as [h p|h k p|h u o p]; destruct (nth_error σ h) as [v|] eqn:E; try discriminate; rewrite (G _ _ E); auto.
Qed.
(** VBox::new of such an array: it is allowed; if it returns, the new box reads as exactly those elements
    (their clones), the object they were taken from reads as before, and nothing was dropped; it panics
    only if a clone panics or the array is too large, and then too the source reads as before. *)
Theorem C58_box_of_slice : forall w sl σ n f cl kd pl j lo k xs t v,
  reach w sl σ n -> wf_ty (TArray f kd) -> at_place σ pl = Some (t, v) ->
  elements t v j = Some (f, xs) -> lo + k <= len xs -> (cl = false -> f_drop f = false) -> k < len_lim kd ->
  match exec (ONewBox (TArray f kd) (PSizedAt k cl pl j lo k)) (w, sl) with
  | Ok _ (w', sl') => exists ys evs, taken_slice f cl xs lo k = Some ys /\
      exec (ORead (PlObj (length sl) PHere)) (w', sl') = Ok (OutVal (VArr ys)) (w', sl') /\
      exec (ORead pl) (w', sl') = Ok (OutVal v) (w', sl') /\ w_log w' = w_log w ++ evs /\ drops_of evs = []
  | Panic (w', sl') => (taken_slice f cl xs lo k = None \/ ISIZE_MAX < up (len_size kd) (f_align f) + k * f_size f + (N.max (len_size kd) (f_align f) - 1)) /\
      exec (ORead pl) (w', sl') = Ok (OutVal v) (w', sl')
  | UB u => u = UNull
  end.
Proof.
  intros w sl σ n f cl kd pl j lo k xs t v HR Hwf Hat He Hle Hd Hk.
  assert (Hpos : 0 < f_align f) by (apply pow2_pos, Hwf).
  assert (Hea : elements_at σ pl j = Some (f, xs)) by (unfold elements_at; now rewrite Hat).
  destruct (slice_val σ f cl kd pl j lo k xs Hpos Hea Hle Hd Hk) as (ai & Hden & Hval & Hlens & Hsz).
  assert (Hal : allowed σ (ONewBox (TArray f kd) (PSizedAt k cl pl j lo k))).
  { eapply L_new_box; eauto. apply no_moves; [reflexivity|intros h _ []]. }
  assert (Hlen : length sl = length σ) by (apply (reach_inv _ _ _ _ HR)).
  pose proof (C45_program_safe w sl σ n _ HR Hal) as H.
  destruct (exec (ONewBox (TArray f kd) (PSizedAt k cl pl j lo k)) (w, sl)) as [r [w' sl']|[w' sl']|u].
  - destruct H as (σ' & evs & L & A & R'). inversion A; subst.
    match goal with H1 : den σ _ _ ?i |- _ => assert (i = ISized k ai) as -> by (eapply (proj1 (den_fun σ)); eassumption) end.
    match goal with H1 : ival _ _ = Some ?x |- _ => rewrite Hval in H1; destruct (taken_slice f cl xs lo k) as [ys|]; [|discriminate]; injection H1 as <- end.
    exists ys, evs. split; [reflexivity|]. cbn [moves] in R'. cbn [kill_vals fold_left] in R'. 
    destruct (C45_reads_back w' sl' _ _ R') as [RB _]. split; [|split].
    + apply (RB _ (TArray f kd)). cbn [at_place]. rewrite Hlen, nth_error_app2, Nat.sub_diag by lia. reflexivity.
    + apply (RB _ t). apply at_place_snoc. exact Hat.
    + split; [exact L|]. congruence.
  - destruct H as (σ' & evs & n' & L & A & R' & _).
    assert (σ' = σ) as -> by (inversion A; symmetry; assumption).
    split; [|now apply (proj1 (C45_reads_back w' sl' σ n' R') pl t v)].
    inversion A; subst; match goal with H1 : den σ _ _ ?i |- _ => assert (i = ISized k ai) as -> by (eapply (proj1 (den_fun σ)); eassumption) end.
    + right. match goal with H1 : fits _ _ = false |- _ => unfold fits in H1; rewrite Hlens in H1; cbn [andb] in H1; apply N.leb_gt in H1; exact H1 end.
    + left. match goal with H1 : ival _ _ = None |- _ => rewrite Hval in H1; destruct (taken_slice f cl xs lo k); [discriminate|reflexivity] end.
  - apply H.
Qed.
Lemma at_place_other σ h x pl : place_handle pl <> h -> at_place (replace_nth σ h x) pl = at_place σ pl.
Proof. intros H. unfold at_place. destruct pl as [g p|g k p|g u o p]; cbn [place_handle] in H; rewrite nth_replace_nth; destruct (Nat.eq_dec h g) as [E|_]; try congruence; reflexivity. Qed.
(** The same when it is pushed to a sequence that does not contain the source: afterwards the sequence has
    one more element, with exactly those elements (their clones). *)
Theorem C58_push_slice : forall w sl σ n h chk vs old f cl kd pl j lo k xs t v,
  reach w sl σ n -> nth_error σ h = Some (ASeq (TArray f kd) chk vs old) -> place_handle pl <> h ->
  at_place σ pl = Some (t, v) -> elements t v j = Some (f, xs) -> lo + k <= len xs -> (cl = false -> f_drop f = false) -> k < len_lim kd ->
  match exec (OPush h (PSizedAt k cl pl j lo k)) (w, sl) with
  | Ok _ (w', sl') => exists ys evs, taken_slice f cl xs lo k = Some ys /\
      exec (OReadSeq h) (w', sl') = Ok (OutVals (vs ++ [VArr ys])) (w', sl') /\
      exec (ORead pl) (w', sl') = Ok (OutVal v) (w', sl') /\ w_log w' = w_log w ++ evs /\ drops_of evs = []
  | Panic (w', sl') => exec (OReadSeq h) (w', sl') = Ok (OutVals vs) (w', sl') /\ exec (ORead pl) (w', sl') = Ok (OutVal v) (w', sl')
  | UB _ => False
  end.
Proof.
  intros w sl σ n h chk vs old f cl kd pl j lo k xs t v HR Hh Hne Hat He Hle Hd Hk.
  destruct (seq_slot w sl σ n h (TArray f kd) chk vs old (reach_inv _ _ _ _ HR) Hh) as (s & _ & Hwf & _).
  assert (Hpos : 0 < f_align f) by (apply pow2_pos, Hwf).
  assert (Hea : elements_at σ pl j = Some (f, xs)) by (unfold elements_at; now rewrite Hat).
  destruct (slice_val σ f cl kd pl j lo k xs Hpos Hea Hle Hd Hk) as (ai & Hden & Hval & Hlens & Hsz).
  assert (Hal : allowed σ (OPush h (PSizedAt k cl pl j lo k))).
  { eapply L_push; eauto. apply no_moves; [reflexivity|]. intros g [<-|[]] [E|[]]. apply Hne. symmetry. exact E. }
  pose proof (C45_program_safe w sl σ n _ HR Hal) as H.
  destruct (exec (OPush h (PSizedAt k cl pl j lo k)) (w, sl)) as [r [w' sl']|[w' sl']|u].
  - destruct H as (σ' & evs & L & A & R').
    assert (G : exists i0 v0, den σ (TArray f kd) (PSizedAt k cl pl j lo k) i0 /\ ival (TArray f kd) i0 = Some v0 /\ drops_of evs = [] /\
      σ' = replace_nth σ h (ASeq (TArray f kd) chk (vs ++ [v0]) old)).
    { inversion A; subst. match goal with B1 : nth_error σ h = Some _ |- _ => rewrite Hh in B1; injection B1 as <- <- <- <- end. eauto 8. }
    destruct G as (i0 & v0 & B2 & B4 & Hev & ->).
    assert (i0 = ISized k ai) as -> by (eapply (proj1 (den_fun σ)); eassumption).
    rewrite Hval in B4. destruct (taken_slice f cl xs lo k) as [ys|]; [|discriminate]. injection B4 as <-.
    exists ys, evs. split; [reflexivity|].
    destruct (C45_reads_back w' sl' _ _ R') as [RB RS]. split; [|split].
    + apply (RS h (TArray f kd) chk (vs ++ [VArr ys]) old). rewrite nth_replace_nth, Hh. destruct (Nat.eq_dec h h); [reflexivity|congruence].
    + apply (RB _ t). rewrite at_place_other by exact Hne. exact Hat.
    + split; [exact L|exact Hev].
  - destruct H as (σ' & evs & n' & L & A & R' & _).
    assert (σ' = σ) as -> by (inversion A; symmetry; assumption).
    destruct (C45_reads_back w' sl' _ _ R') as [RB RS].
    split; [apply (RS _ _ _ _ _ Hh)|now apply (RB _ t)].
  - destruct H as (_ & t' & p & i & E & _). discriminate.
Qed.
(** Concrete: the second element of the u16 array of the box of [c1] copied, the second element of the
    nested array of droppable elements cloned, and a whole new object whose array field is a copy of the
    one in the box. *)
Definition p58a : pinit := PSizedAt 1 false (PlObj 0 PHere) (Some 3%nat) 1 1.
Definition p58b : pinit := PSizedAt 1 true (PlObj 0 (PFld 4 (PFld 0 PHere))) None 1 1.
Definition p58c : pinit :=
  PFields [PFixed (by_ [2]); PFixed h1; PWrap (PSized 3 (ACopyFrom [by_ [97]; by_ [98]; by_ [99]]));
           PArrAt false (PlObj 0 PHere) (Some 3%nat) 0 2;
           PFields [PSized 2 (AMoveFrom [h2; h3]); PFixed (by_ [1;2;3;4])]].
Example C58_meets :
  reach (fst c1) (snd c1) σ1 0 /\
  (at_place σ1 (PlObj 0 PHere) = Some (t_ex, v_ex) /\ elements t_ex v_ex (Some 3%nat) = Some (f_u16, [by_ [0;0]; by_ [1;0]]) /\
   f_drop f_u16 = false /\ out_of (exec (ORead (PlObj 1 PHere)) (step_cfg (ONewBox (TArray f_u16 LU8) p58a) c1)) = Some (OutVal (VArr [by_ [1;0]]))) /\
  (elements_at σ1 (PlObj 0 (PFld 4 (PFld 0 PHere))) None = Some (f_box, [h2; h3]) /\
   taken_slice f_box true [h2; h3] 1 1 = Some [h3] /\
   out_of (exec (ORead (PlObj 1 PHere)) (step_cfg (ONewBox (TArray f_box LU8) p58b) c1)) = Some (OutVal (VArr [h3]))) /\
  (exists i, den σ1 t_ex p58c i) /\
  out_of (exec (ORead (PlObj 1 PHere)) (step_cfg (ONewBox t_ex p58c) c1)) = Some (OutVal v_ex).
Proof.
  split.
  { apply (reach_step (w_start, []) [] 0 op1 OutUnit σ1 []); [now constructor| |vm_compute; reflexivity|].
    - apply L_new_box with i_ex; [apply t_ex_wf|apply p_ex_den| |vm_compute; reflexivity]. apply no_moves; [reflexivity|intros h []].
    - apply (A_new_box [] t_ex p_ex i_ex v_ex); [apply p_ex_den|vm_compute; reflexivity|vm_compute; reflexivity]. }
  split; [repeat split; vm_compute; reflexivity|]. split; [repeat split; vm_compute; reflexivity|]. split; [|vm_compute; reflexivity].
  eexists. unfold t_ex, p58c, TStr, t_tup. repeat constructor; try (vm_compute; reflexivity); try (unfold aok, elems_ok; cbn; conc).
Qed.

(** ** C11: boxes inside a larger initializer *)

(** [box_inside t i p t' a u]: the initializer [i] of type [t] has, as the initializer of its part [p] (a
    field of a tuple or struct, the inside of a newtype, at any depth), the VBox at [a] with contents [u]
    of type [t']. *)
Inductive box_inside : vty -> init -> path -> vty -> N -> vval -> Prop :=
| In_here : forall t a u, box_inside t (IBox a u) PHere t a u
| In_new : forall t i p t' a u, box_inside t i p t' a u -> box_inside (TNew t) (INew i) (PInner p) t' a u
| In_field : forall kd hs ha fs is_ j t i p t' a u,
    varlen_field fs j = Some t -> nth_error is_ j = Some i -> box_inside t i p t' a u ->
    box_inside (TRec kd hs ha fs) (IRec is_) (PFld j p) t' a u.
Lemma ivals_nth fs : forall is_ cs vs j t i, ivals fs is_ cs = Some vs -> varlen_field fs j = Some t -> nth_error is_ j = Some i ->
  exists v, nth_error vs j = Some v /\ ival t i = Some v.
Proof.
  induction fs as [|off f r IH|off f r IH|t0 r IH|f lf r IH]; intros is_ cs vs j t i Hi Hf Hn; cbn [varlen_field] in Hf; [discriminate| | | |];
    destruct is_ as [|i0 is_]; try (destruct j; discriminate); cbn [ivals] in Hi.
  - destruct j as [|j]; [discriminate|]. destruct i0; try discriminate. destruct (ivals r is_ cs) as [us|] eqn:E; [|discriminate]. injection Hi as <-. exact (IH _ _ _ _ _ _ E Hf Hn).
  - destruct j as [|j]; [discriminate|]. destruct i0; try discriminate. destruct (ivals r is_ cs) as [us|] eqn:E; [|discriminate]. injection Hi as <-. exact (IH _ _ _ _ _ _ E Hf Hn).
  - destruct (ival t0 i0) as [v0|] eqn:E0; [|discriminate]. destruct (ivals r is_ cs) as [us|] eqn:E; [|discriminate]. injection Hi as <-.
    destruct j as [|j]; [injection Hf as <-; injection Hn as <-; exists v0; split; [reflexivity|exact E0]|exact (IH _ _ _ _ _ _ E Hf Hn)].
  - destruct j as [|j]; [discriminate|]. destruct i0; try discriminate. destruct (snd (arun f (lf cs) _)) as [xs|]; [|discriminate].
    destruct (ivals r is_ cs) as [us|] eqn:E; [|discriminate]. injection Hi as <-. exact (IH _ _ _ _ _ _ E Hf Hn).
Qed.
Lemma iboxes_nth fs : forall is_ j t i b, varlen_field fs j = Some t -> nth_error is_ j = Some i -> In b (iboxes t i) -> In b (iboxes_flds fs is_).
Proof.
  induction fs as [|off f r IH|off f r IH|t0 r IH|f lf r IH]; intros is_ j t i b Hf Hn Hb; cbn [varlen_field] in Hf; [discriminate| | | |];
    destruct is_ as [|i0 is_]; try (destruct j; discriminate); (destruct j as [|j]; [try discriminate|]); cbn [iboxes_flds]; try (eapply IH; eassumption).
  - injection Hf as <-. injection Hn as <-. apply in_or_app. now left.
  - apply in_or_app. right. eapply IH; eauto.
Qed.
Lemma inside_box t i p t' a u : box_inside t i p t' a u -> In (box_block t' a u) (iboxes t i).
Proof.
  induction 1; [destruct t; left; reflexivity|exact IHbox_inside|]. cbn [iboxes]. eapply iboxes_nth; eauto.
Qed.
Lemma inside_val t i p t' a u : box_inside t i p t' a u -> forall v, ival t i = Some v -> subval t v p = Some (t', u).
Proof.
  induction 1 as [t a u|t i p t' a u H IH|kd hs ha fs is_ j t i p t' a u Hf Hn H IH]; intros v Hv.
  - assert (v = u) as -> by (destruct t; cbn [ival] in Hv; congruence). reflexivity.
  - cbn [ival] in Hv. destruct (ival t i) as [v0|]; [|discriminate]. injection Hv as <-. cbn [subval]. now apply IH.
  - cbn [ival] in Hv. destruct (ivals fs is_ _) as [vs|] eqn:E; [|discriminate]. injection Hv as <-.
    destruct (ivals_nth _ _ _ _ _ _ _ E Hf Hn) as (v & H1 & H2). cbn [subval]. rewrite Hf, H1. now apply IH.
Qed.
Lemma inside_wf t i p t' a u : box_inside t i p t' a u -> wf_ty t -> wf_ty t'.
Proof.
  induction 1; auto. intros (_ & Hfs & _). apply IHbox_inside. clear -H Hfs.
  revert j H; induction fs as [|off f r IH|off f r IH|t0 r IH|f lf r IH]; intros [|j] H; cbn in *; try discriminate; try (eapply IH; [|exact H]; tauto).
  injection H as <-. tauto.
Qed.
Lemma freed_once (a : N) l l' : Permutation l l' -> NoDup (map b_base l') -> forall b, In b l' -> b_base b = a ->
  filter (fun b => b_base b =? a) l = [b].
Proof.
  intros Hp Hn b Hb Ha.
  assert (Hn' : NoDup (map b_base l)) by (eapply Permutation_NoDup; [apply Permutation_map, Permutation_sym, Hp|exact Hn]).
  assert (Hb' : In b l) by (eapply Permutation_in; [apply Permutation_sym, Hp|exact Hb]). clear Hp Hn Hb l'. subst a.
  induction l as [|c l IH]; [contradiction|]. cbn [map filter] in *. inversion Hn' as [|? ? H1 H2]; subst. destruct Hb' as [<- |Hb].
  - rewrite N.eqb_refl. f_equal. clear -H1. induction l as [|d l IH]; [reflexivity|]. cbn [map filter] in *.
    destruct (N.eqb_spec (b_base d) (b_base c)) as [E|E]; [exfalso; apply H1; left; exact E|]. apply IH. intros H. apply H1. now right.
  - destruct (N.eqb_spec (b_base c) (b_base b)) as [E|E]; [|now apply IH]. exfalso. apply H1. rewrite E. now apply in_map.
Qed.
(** However deep inside tuples, structs and newtypes a VBox is used as the initializer of a part: when the
    object has been built, that part reads back as the contents of the box; the allocation of the box was
    freed once, with its own size and alignment, and no destructor ran. *)
Theorem C11_boxes_inside : forall t w i dst l v p t' a u,
  wf_ty t -> init_ready w t i dst (isize t i) -> place_ok (without (w_blocks w) (ibases t i)) t dst (isize t i) ->
  init_layout t i w = Ok (Some l) w -> ival t i = Some v -> box_inside t i p t' a u ->
  exists w' evs, initialize t i dst l w = Ok tt w' /\ w_log w' = w_log w ++ evs /\ drops_of evs = [] /\
    view t dst w' = Ok v w' /\ subval t v p = Some (t', u) /\
    filter (fun b => b_base b =? a) (frees_of evs) = [mkB a (vsize t' u) (valign t') true] /\
    (forall b, In b (w_blocks w') -> b_base b <> a).
Proof.
  intros t w i dst l v p t' a u Hwf Hr Hp Hl Hv Hin. pose proof (init_layout_lens t w i dst _ l w Hwf Hr Hl) as Hz.
  destruct (init_layout_some t w i dst _ l Hwf Hr Hl) as [-> _].
  pose proof (initialize_ok t w i dst Hwf Hr Hp Hz) as HB. unfold build_res in HB.
  pose proof (proj1 irun_own_all t i (proj1 Hr)) as (O1 & O2). rewrite (proj1 irun_ival) in *. rewrite Hv in *.
  destruct HB as (w' & E & U & Hrp). destruct O2 as (O2 & _). pose proof (upd_blocks _ _ _ _ _ _ U) as Ub.
  exists w', (fst (irun t i)). split; [exact E|]. split; [apply U|]. split; [exact O2|].
  destruct (proj1 ival_ok_all t Hwf i v (proj1 Hr) Hv) as [Hv' Hs']. specialize (Hv' Hz).
  split. { apply view_ok; [exact Hwf|]. split; [exact Hv'|]. split; [|exact Hrp]. rewrite Ub. unfold vsize. rewrite Hs'. exact Hp. }
  split; [eapply inside_val; eauto|]. pose proof (inside_box _ _ _ _ _ _ Hin) as Hbx. split.
  - rewrite (valign_sp t' (inside_wf _ _ _ _ _ _ Hin Hwf)). apply (freed_once a _ _ O1 (proj1 (proj2 Hr)) _ Hbx). reflexivity.
  - intros b Hb Hab. rewrite Ub in Hb. apply in_without in Hb. apply Hb. rewrite Hab. change a with (b_base (box_block t' a u)). now apply in_map.
Qed.
(** A tuple of a u32 and a newtype around a box made before: the box is the inside of the newtype. *)
Definition t_in : vty := TRec KTuple 0 1 (FVar (TFixed f_u32) (FVar (TNew t_ex) FNil)).
Definition i_in : init := IRec [IFixed (by_ [1;2;3;4]); INew (IBox 4096 v_ex)].
Definition w_in : world := set_blocks w_ex (mkB 8192 100 8 true :: w_blocks w_ex).
Example C11_inside_meets :
  wf_ty t_in /\ init_ready w_in t_in i_in 8200 (isize t_in i_in) /\
  place_ok (without (w_blocks w_in) (ibases t_in i_in)) t_in 8200 (isize t_in i_in) /\
  (exists l, init_layout t_in i_in w_in = Ok (Some l) w_in) /\
  ival t_in i_in = Some (VRec [VFix (by_ [1;2;3;4]); VNew v_ex]) /\
  box_inside t_in i_in (PFld 1 (PInner PHere)) t_ex 4096 v_ex.
Proof.
  assert (Hwf : wf_ty t_in).
  { cbn [wf_ty wf_flds t_in]. unfold header_ok; cbn [head_fields]. conc; try apply u32_ok; try apply t_ex_wf; try discriminate; conc; try in_tac; exact I. }
  assert (Hr : init_ready w_in t_in i_in 8200 (isize t_in i_in)).
  { split; [|split].
    - cbn [iwt iwt_flds t_in i_in]. split; [reflexivity|]. split; [apply v_ex_ok|exact I].
    - vm_compute. conc.
    - cbn [isrc isrc_flds t_in i_in]. split; [exact I|]. split; [|exact I]. pose proof v_ex_at as (H1 & (H2 & H3 & H4 & H5) & H6). split; [|split].
      + right. rewrite w_ex_blocks. left. vm_compute. reflexivity.
      + assert (HL : live (w_blocks w_in) 4096 (vsize t_ex v_ex)) by (eapply live_incl; [exact H5|]; apply incl_tl, incl_refl).
        unfold src_ok, place_ok. repeat split; auto.
      + right; right; left. conc. }
  split; [exact Hwf|]. split; [exact Hr|]. split.
  { unfold place_ok. conc. right. exists (mkB 8192 100 8 true). split; [|conc]. unfold w_in. cbn [set_blocks w_blocks]. rewrite w_ex_blocks. left. reflexivity. }
  split.
  { exists (sp_lay t_in (ishape t_in i_in)). pose proof (init_layout_ok t_in w_in i_in 8200 _ Hwf Hr) as H.
    assert (isize t_in i_in <? W = true) as Hz by (vm_compute; reflexivity). rewrite Hz in H. apply H. reflexivity. }
  split; [vm_compute; reflexivity|].
  eapply In_field; [reflexivity|reflexivity|]. apply In_new, In_here.
Qed.
