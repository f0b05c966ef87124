(** PropsMut.v - C06, C36, C37: mutation through the accessors and try_set_layout_controllers. *)
From Verif Require Export PropsBox MutTyping.

(** The fields of a record as a list, in declaration order. *)
Inductive field := Ordinary (off : N) (f : fty) | Ctrl (off : N) (f : fty) | VarField (t : vty) | ArrField (f : fty).
Definition is_ctrl (fd : field) : bool := match fd with Ctrl _ _ => true | _ => false end.
Fixpoint rec_fields (fs : flds) : list field :=
  match fs with
  | FNil => []
  | FNormal off f r => Ordinary off f :: rec_fields r
  | FLength off f r => Ctrl off f :: rec_fields r
  | FVar t r => VarField t :: rec_fields r
  | FArr f _ r => ArrField f :: rec_fields r
  end.

Lemma Forall2_len {A B} (R : A -> B -> Prop) l l' : Forall2 R l l' -> length l = length l'.
Proof. induction 1; cbn; congruence. Qed.
(** calculate_layout has no side effect. *)
Lemma load_pure a n al w x w' : load a n al w = Ok x w' -> w' = w.
Proof.
  unfold load, bind, check_ref. intros H. repeat match type of H with context [if ?b then _ else _] => destruct b; try discriminate end. congruence.
Qed.
Lemma check_pure a n al w x w' : check_ref a n al w = Ok x w' -> w' = w.
Proof. unfold check_ref. intros H. repeat match type of H with context [if ?b then _ else _] => destruct b; try discriminate end. congruence. Qed.
Lemma mapM_pure {A B} (f : A -> M world B) l : (forall x w y w', f x w = Ok y w' -> w' = w) -> forall w y w', mapM f l w = Ok y w' -> w' = w.
Proof.
  intros Hf. induction l as [|x l IH]; intros w y w' H; cbn [mapM] in H; [unfold ret in H; congruence|].
  unfold bind in H. destruct (f x w) as [b w1| |] eqn:E; try discriminate. apply Hf in E. subst w1.
  destruct (mapM f l w) as [c w1| |] eqn:E; try discriminate. apply IH in E. subst w1. unfold ret in H. congruence.
Qed.
Lemma calc_pure_all :
  (forall t a w l w', calc_layout t a w = Ok l w' -> w' = w) /\
  (forall fs cs a s w l w', calc_tail fs cs a s w = Ok l w' -> w' = w).
Proof.
  apply vty_flds_ind.
  - intros f a w l w' H. unfold calc_layout, ret in H. congruence.
  - intros f k a w l w' H. cbn [calc_layout] in H. unfold bind in H. destruct (load_len k a w) as [n w1| |] eqn:E; try discriminate.
    assert (w1 = w). { unfold load_len, bind in E. destruct (load a (len_size k) (len_size k) w) as [bs w2| |] eqn:E2; try discriminate. apply load_pure in E2. destruct (dec_le bs); unfold ret, undef in E; congruence. }
    destruct (cat_array_field_fast f n (len_size k)) as [[o n'] s]. unfold ret in H. congruence.
  - intros t IH a w l w' H. eapply IH; exact H.
  - intros kd hs ha fs IH a w l w' H. cbn [calc_layout] in H. unfold bind in H.
    destruct (load_ctrls fs a w) as [cs w1| |] eqn:E; try discriminate.
    assert (w1 = w) as ->. { eapply mapM_pure; [|exact E]. intros [o f] w0 y w0' H0. eapply load_pure; exact H0. }
    destruct (calc_tail fs cs a hs w) as [q w2| |] eqn:E2; try discriminate. apply IH in E2. unfold ret in H. congruence.
  - intros cs a s w l w' H. cbn [calc_tail] in H. unfold ret in H. congruence.
  - intros off f r IH cs a s w l w' H. eapply IH; exact H.
  - intros off f r IH cs a s w l w' H. eapply IH; exact H.
  - intros t IHt r IH cs a s w l w' H. cbn [calc_tail] in H. unfold bind in H.
    destruct (check_ref _ _ _ w) as [[] w1| |] eqn:E0; try discriminate. apply check_pure in E0. subst w1.
    destruct (calc_layout t _ w) as [l1 w1| |] eqn:E1; try discriminate. apply IHt in E1. subst w1.
    destruct (calc_tail r _ _ _ w) as [l2 w1| |] eqn:E2; try discriminate. apply IH in E2. unfold ret in H. congruence.
  - intros f lf r IH cs a s w l w' H. cbn [calc_tail] in H. unfold bind at 1 in H. unfold len_call in H.
    destruct (lf cs <? W); [|discriminate]. cbn [ret] in H. destruct (cat_array_field_fast f (lf cs) s) as [[o n'] s']. unfold bind in H.
    destruct (calc_tail r _ _ _ w) as [l2 w1| |] eqn:E2; try discriminate. apply IH in E2. unfold ret in H. congruence.
Qed.
Definition calc_layout_pure := proj1 calc_pure_all.

(** C06. [*leaf = new] through muts() / mut_slice() / inner_mut(): the addressed leaf reads back as
    the new value, every other leaf is as before, the layout is the same, no byte outside the leaf
    changes, the old value is dropped (once, if it has a destructor) and nothing else happens.
    Indexing out of range panics and changes nothing. *)
Theorem C06_mutation_is_local : forall t w a v p f new,
  wf_ty t -> obj_at w t a v -> mut_leaf t p = Some f -> len new = f_size f ->
  match leaf v p with
  | Some old => exists w' v' o l,
      assign t a p new w = Ok tt w' /\
      view t a w = Ok v w /\ view t a w' = Ok v' w' /\
      leaf v' p = Some new /\ (forall q, q <> p -> leaf v' q = leaf v q) /\
      calc_layout t a w = Ok l w /\ calc_layout t a w' = Ok l w' /\
      a <= o /\ o + f_size f <= a + lay_size l /\
      rd (w_mem w') o (f_size f) = new /\
      (forall x, x < o \/ o + f_size f <= x -> w_mem w' x = w_mem w x) /\
      w_log w' = w_log w ++ (if f_drop f then [EDrop old] else []) /\ w_blocks w' = w_blocks w
  | None => assign t a p new w = Panic w
  end.
Proof.
  intros t w a v p f new Hwf Ho Hm Hl. pose proof (assign_ok t w a v p f new Hwf Ho Hm Hl) as H.
  destruct (leaf v p) as [old|] eqn:El; [|exact H].
  destruct H as (w' & o & E & Hob & U & Hrd & Ho' & Hsh).
  exists w', (put v p new), (a + o), (sp_lay t (vshape v)).
  split; [exact E|]. split; [now apply view_ok|]. split; [now apply view_ok|]. split; [eapply leaf_put_eq; exact El|].
  split; [intros q Hq; apply leaf_put_ne; auto|]. split; [now apply calc_layout_ok|].
  split; [rewrite <- Hsh; now apply calc_layout_ok|]. split; [lia|].
  split; [rewrite (lay_size_sp t v (proj1 Ho)); lia|].
  split; [exact Hrd|]. split; [apply U|]. split.
  - rewrite (upd_log_eq _ _ _ _ _ _ U). unfold drop_events. destruct (f_drop f); reflexivity.
  - rewrite (upd_blocks _ _ _ _ _ _ U). apply without_nil.
Qed.
Example C06_meets :
  wf_ty t_ex /\ obj_at w_ex t_ex 4096 v_ex /\
  (* element 1 of the array inside the tuple inside the struct *)
  mut_leaf t_ex (PFld 4 (PFld 0 (PIdx 1))) = Some f_box /\ leaf v_ex (PFld 4 (PFld 0 (PIdx 1))) = Some h3 /\
  (* and an index out of range *)
  mut_leaf t_ex (PFld 3 (PIdx 2)) = Some f_u16 /\ leaf v_ex (PFld 3 (PIdx 2)) = None.
Proof. split; [apply t_ex_wf|]. split; [apply v_ex_at|]. repeat split. Qed.

(** A #[controls_layout] field of a live object cannot be reached through a mutable path at all: such
    a program does not type-check ([UType]). *)
Theorem C06_controllers_not_mutable : forall kd hs ha fs w a v j off f p new,
  wf_ty (TRec kd hs ha fs) -> obj_at w (TRec kd hs ha fs) a v ->
  nth_error (rec_fields fs) j = Some (Ctrl off f) ->
  assign (TRec kd hs ha fs) a (PFld j p) new w = UB UType.
Proof.
  intros kd hs ha fs w a v j off f p new Hwf Ho Hj. apply (assign_none _ w a v); auto. cbn [mut_leaf]. clear Hwf Ho.
  revert j Hj. induction fs as [|off0 f0 r IH|off0 f0 r IH|t r IH|f0 lf r IH]; intros [|j] Hj; cbn in *; try discriminate; eauto.
Qed.
(** Hence no assignment through the accessors at all, to whatever part and at whatever depth, changes
    the layout (the size, or any offset or array length inside). *)
Theorem C06_layout_fixed : forall t w a v p new w',
  wf_ty t -> obj_at w t a v -> assign t a p new w = Ok tt w' ->
  (forall x f, locate t a p w = Ok (x, f) w -> len new = f_size f) ->
  exists l, calc_layout t a w = Ok l w /\ calc_layout t a w' = Ok l w'.
Proof.
  intros t w a v p new w' Hwf Ho E Hl. destruct (mut_leaf t p) as [f|] eqn:Hm.
  2:{ rewrite (assign_none t w a v p new Hwf Ho Hm) in E. discriminate. }
  pose proof (proj1 locate_all t Hwf w a v p f Ho Hm) as HL. unfold loc_ok in HL.
  assert (Hn : leaf v p <> None -> len new = f_size f).
  { intros H. destruct (leaf v p) as [x|]; [|congruence]. destruct HL as (o & El & _). exact (Hl _ _ El). }
  destruct (leaf v p) as [x|] eqn:El.
  2:{ exfalso. unfold assign, bind in E. rewrite HL in E. discriminate. }
  pose proof (C06_mutation_is_local t w a v p f new Hwf Ho Hm (Hn ltac:(congruence))) as H. rewrite El in H.
  destruct H as (w2 & v' & o & l & E' & _ & _ & _ & _ & L1 & L2 & _). rewrite E in E'. injection E' as <-. eauto.
Qed.

(** C36. try_set_layout_controllers, when no destructor panics and the length expressions evaluate on the
    new controllers. Ok: all length expressions agree on
    old and new controllers; afterwards the controllers read back as the new values and every other
    field as before, the layout is the same, only bytes of controllers changed and the old
    controllers were dropped. Err: the object is unchanged and the new controllers are dropped. *)
Theorem C36_try_set_controllers : forall hs ha fs w a vs news,
  let t := TRec KStruct hs ha fs in
  wf_ty t -> obj_at w t a (VRec vs) -> ctrls_ok fs news -> lengths_eval fs news ->
  exists r w' vs' l,
    try_set_layout_controllers fs a (fun _ => false) news w = Ok r w' /\
    (r = true <-> same_lengths fs (vctrls fs vs) news) /\
    view t a w = Ok (VRec vs) w /\ view t a w' = Ok (VRec vs') w' /\
    calc_layout t a w = Ok l w /\ calc_layout t a w' = Ok l w' /\
    w_blocks w' = w_blocks w /\
    (r = true -> vctrls fs vs' = news /\
       (forall j fd, nth_error (rec_fields fs) j = Some fd -> is_ctrl fd = false -> nth_error vs' j = nth_error vs j) /\
       (forall x, (forall off f, In (off, f) (ctrl_fields fs) -> x < a + off \/ a + off + f_size f <= x) -> w_mem w' x = w_mem w x) /\
       w_log w' = w_log w ++ ctrl_drops (ctrl_types fs) (vctrls fs vs)) /\
    (r = false -> vs' = vs /\ (forall x, w_mem w' x = w_mem w x) /\ w_log w' = w_log w ++ ctrl_drops (ctrl_types fs) news).
Proof.
  intros hs ha fs w a vs news t Hwf Ho Hn Hz.
  assert (Ex : exists r w', try_set_layout_controllers fs a (fun _ => false) news w = Ok r w' /\ (r = false -> w_mem w' = w_mem w)).
  { destruct (try_set_cases hs ha fs w a vs (fun _ => false) news Hwf Ho Hn) as [[X _]|[(_ & _ & E)|(_ & _ & w1 & k & _ & _ & _ & _ & _ & _ & [(_ & E & _)|((old & _ & H) & _)])]].
    - contradiction.
    - rewrite E. eexists _, _. split; [reflexivity|]. reflexivity.
    - rewrite E. eexists _, _. split; [reflexivity|]. discriminate.
    - discriminate. }
  destruct Ex as (r & w' & E & Hmem).
  destruct (try_set_obj hs ha fs w a vs _ news r w' Hwf Ho Hn E) as (vs' & Ho' & Hsh & Hbl & Evs & _ & Hr & Hlog & Hout).
  exists r, w', vs', (sp_lay t (vshape (VRec vs))). split; [exact E|]. split; [exact Hr|].
  split; [now apply view_ok|]. split; [now apply view_ok|]. split; [now apply calc_layout_ok|].
  split; [replace (vshape (VRec vs)) with (vshape (VRec vs')) by (cbn [vshape]; now rewrite Hsh); now apply calc_layout_ok|].
  split; [exact Hbl|]. split.
  - intros ->. assert (Hs : same_lengths fs (vctrls fs vs) news) by now apply Hr.
    destruct (with_ctrls_ok fs vs _ _ news (proj1 Ho) Hn Hs) as (_ & _ & C3). rewrite Evs. split; [exact C3|]. split; [|split; [exact Hout|exact Hlog]].
    clear. revert vs news. induction fs as [|off0 f0 r IH|off0 f0 r IH|t r IH|f0 lf r IH]; intros vs news [|j] fd Hj Hc;
      destruct vs as [|v vs]; cbn [rec_fields with_ctrls nth_error] in *; try discriminate; try reflexivity; try (eapply IH; eassumption).
    + injection Hj as <-. discriminate.
    + destruct news as [|n news]; [reflexivity|]. cbn [nth_error]. eapply IH; eassumption.
  - intros ->. split; [exact Evs|]. split; [intros x; now rewrite Hmem|exact Hlog].
Qed.
(** When a length expression panics on the new controllers, the panic propagates: the object is
    unchanged and the new controllers are dropped, whatever the destructors of the old ones do. *)
Theorem C36_length_panics : forall hs ha fs w a vs news dp,
  let t := TRec KStruct hs ha fs in
  wf_ty t -> obj_at w t a (VRec vs) -> ctrls_ok fs news -> ~ lengths_eval fs news ->
  exists w' l,
    try_set_layout_controllers fs a dp news w = Panic w' /\
    view t a w = Ok (VRec vs) w /\ view t a w' = Ok (VRec vs) w' /\
    calc_layout t a w = Ok l w /\ calc_layout t a w' = Ok l w' /\
    w_blocks w' = w_blocks w /\ (forall x, w_mem w' x = w_mem w x) /\
    w_log w' = w_log w ++ ctrl_drops (ctrl_types fs) news.
Proof.
  intros hs ha fs w a vs news dp t Hwf Ho Hn Hz.
  destruct (try_set_cases hs ha fs w a vs dp news Hwf Ho Hn) as [[_ E]|[(X & _)|(X & _)]]; [|contradiction|contradiction].
  eexists _, (sp_lay t (vshape (VRec vs))). split; [exact E|]. split; [now apply view_ok|].
  split; [apply view_ok; [exact Hwf|apply obj_log, Ho]|]. split; [now apply calc_layout_ok|].
  split; [apply calc_layout_ok; [exact Hwf|apply obj_log, Ho]|]. repeat split.
Qed.
(** Two controllers and an array of (first - second) elements: (2, 3) makes the subtraction overflow. *)
Definition w_diff : world := match vbox_new t_diff (i_diff 5 3) w_start with Ok _ w => w | _ => w_start end.
Definition fs_diff : flds := FLength 8 u8 (FLength 9 u8 (FNormal 0 f_box (FArr f_u16 lf_diff FNil))).
Definition vs_diff : list vval := [VFix (by_ [5]); VFix (by_ [3]); VFix h1; VArr [by_ [0;0]; by_ [1;0]]].
Lemma w_diff_at : obj_at w_diff t_diff 4096 (VRec vs_diff).
Proof.
  assert (Hb : w_blocks w_diff = [mkB 4096 20 8 true]) by (vm_compute; reflexivity).
  split; [cbn; conc|]. split; [|cbn [repr repr_flds t_diff vs_diff]; conc]. unfold place_ok. rewrite Hb. conc. right. eexists. split; [left; reflexivity|]. conc.
Qed.
Example C36_length_panics_meets :
  t_diff = TRec KStruct 16 8 fs_diff /\ wf_ty t_diff /\ obj_at w_diff t_diff 4096 (VRec vs_diff) /\
  ctrls_ok fs_diff [by_ [2]; by_ [3]] /\ ~ lengths_eval fs_diff [by_ [2]; by_ [3]] /\
  match try_set_layout_controllers fs_diff 4096 (fun _ => false) [by_ [2]; by_ [3]] w_diff with Panic _ => True | _ => False end /\
  ctrls_ok fs_diff [by_ [9]; by_ [7]] /\ lengths_eval fs_diff [by_ [9]; by_ [7]] /\
  match try_set_layout_controllers fs_diff 4096 (fun _ => false) [by_ [9]; by_ [7]] w_diff with Ok true _ => True | _ => False end.
Proof.
  split; [reflexivity|]. split; [apply t_diff_wf|]. split; [apply w_diff_at|]. split; [repeat constructor|].
  split; [intros [H _]; vm_compute in H; discriminate|]. split; [vm_compute; exact I|]. split; [repeat constructor|].
  split; [split; [vm_compute; reflexivity|exact I]|vm_compute; exact I].
Qed.
(** S { n: u8 controls the length }: from 2 to 2 is accepted, from 2 to 3 refused. *)
Example C36_meets : exists hs ha fs vs, t_ex = TRec KStruct hs ha fs /\ v_ex = VRec vs /\
  obj_at w_ex t_ex 4096 (VRec vs) /\ ctrls_ok fs [by_ [2]] /\ lengths_eval fs [by_ [2]] /\ same_lengths fs (vctrls fs vs) [by_ [2]] /\
  ctrls_ok fs [by_ [3]] /\ lengths_eval fs [by_ [3]] /\ ~ same_lengths fs (vctrls fs vs) [by_ [3]].
Proof.
  eexists _, _, _, _. split; [reflexivity|]. split; [reflexivity|]. split; [apply v_ex_at|]. cbn.
  repeat (split; [repeat constructor|]). intros [H _]. vm_compute in H. discriminate.
Qed.

(** C37. REFUTED. Two controllers with destructors, array length n1 + n2 (the length expression looks
    at the first byte). From (1, 2) to (2, 1): the lengths agree, so the assignment starts; the
    destructor of the first old controller panics, the object is left with (2, 2), and its array now
    reports four elements in storage for three: the next read is out of bounds. *)
Definition fs_two : flds := FLength 0 f_box (FLength 8 f_box (FArr u8 lf_sum FNil)).
Definition t_two : vty := TRec KStruct 16 8 fs_two.
Definition c_1 : list cell := by_ [1;0;0;0;0;0;0;0].
Definition c_2 : list cell := by_ [2;0;0;0;0;0;0;0].
Definition vs_two : list vval := [VFix c_1; VFix c_2; VArr [by_ [7]; by_ [8]; by_ [9]]].
Definition w_two : world :=
  match vbox_new t_two (IRec [IFixed c_1; IFixed c_2; IArrF (ACopyFrom [by_ [7]; by_ [8]; by_ [9]])]) w_start with Ok _ w => w | _ => w_start end.
Definition panics_on_1 (old : list cell) : bool := match old with By 1 :: _ => true | _ => false end.
Lemma w_two_blocks : w_blocks w_two = [mkB 4096 19 8 true].
Proof. vm_compute. reflexivity. Qed.
Lemma t_two_wf : wf_ty t_two.
Proof.
  cbn [wf_ty wf_flds t_two fs_two]. unfold header_ok; cbn [head_fields].
  conc; try apply u8_ok; try apply box_ok; try apply lf_sum_ok; conc; try in_tac. left. vm_compute. discriminate.
Qed.
Lemma w_two_at : obj_at w_two t_two 4096 (VRec vs_two).
Proof.
  split; [cbn; conc|]. split; [|cbn [repr repr_flds t_two fs_two vs_two]; conc].
  unfold place_ok. rewrite w_two_blocks. conc. right. eexists. split; [left; reflexivity|]. conc.
Qed.
Theorem C37_try_set_panic_refuted :
  exists fs w a vs news dp w',
    let t := TRec KStruct 16 8 fs in
    wf_ty t /\ obj_at w t a (VRec vs) /\ ctrls_ok fs news /\ same_lengths fs (vctrls fs vs) news /\
    try_set_layout_controllers fs a dp news w = Panic w' /\
    (exists l l', calc_layout t a w = Ok l w /\ calc_layout t a w' = Ok l' w' /\ lay_size l < lay_size l') /\
    view t a w' = UB UOob.
Proof.
  exists fs_two, w_two, 4096, vs_two, [c_2; c_1], panics_on_1.
  assert (H : match try_set_layout_controllers fs_two 4096 panics_on_1 [c_2; c_1] w_two with
    | Panic w' => match calc_layout t_two 4096 w_two, calc_layout t_two 4096 w' with
                  | Ok l _, Ok l' _ => lay_size l = 19 /\ lay_size l' = 20 | _, _ => False end /\ view t_two 4096 w' = UB UOob
    | _ => False end) by (vm_compute; repeat split).
  destruct (try_set_layout_controllers fs_two 4096 panics_on_1 [c_2; c_1] w_two) as [|w'|] eqn:E; try contradiction.
  exists w'. destruct H as [H1 H2]. cbv zeta. split; [apply t_two_wf|]. split; [apply w_two_at|].
  split; [repeat constructor|]. split; [repeat constructor|]. split; [reflexivity|]. split; [|exact H2].
  assert (P : forall t a w l w1, calc_layout t a w = Ok l w1 -> wf_ty t -> (exists v, obj_at w t a v) -> w1 = w).
  { intros t a w l w1 H Hwf [v Ho]. rewrite (calc_layout_ok t w a v Hwf Ho) in H. congruence. }
  destruct (calc_layout t_two 4096 w_two) as [l w1| |] eqn:E1; try contradiction.
  destruct (calc_layout t_two 4096 w') as [l' w2| |] eqn:E2; try contradiction.
  pose proof (P _ _ _ _ _ E1 t_two_wf (ex_intro _ _ w_two_at)) as ->. exists l, l'.
  split; [exact E1|]. split; [|lia].
  change (TRec KStruct 16 8 fs_two) with t_two. rewrite E2. f_equal. apply (calc_layout_pure _ _ _ _ _ E2).
Qed.
(** What does hold: if every partial assignment (the first k controllers new, the others old) keeps
    all lengths, then the object is consistent after the panic, with the first k controllers new, and
    its layout is unchanged. In particular a struct with at most one controller is always safe. *)
Theorem C37_try_set_panic_partial : forall hs ha fs w a vs news dp w',
  let t := TRec KStruct hs ha fs in
  wf_ty t -> obj_at w t a (VRec vs) -> ctrls_ok fs news ->
  (forall k, same_lengths fs (vctrls fs vs) (mixed k news (vctrls fs vs))) ->
  try_set_layout_controllers fs a dp news w = Panic w' ->
  exists k l, view t a w' = Ok (VRec (with_ctrls fs vs (mixed k news (vctrls fs vs)))) w' /\
    calc_layout t a w = Ok l w /\ calc_layout t a w' = Ok l w' /\ w_blocks w' = w_blocks w.
Proof.
  intros hs ha fs w a vs news dp w' t Hwf Ho Hn Hmix E.
  destruct (try_set_cases hs ha fs w a vs dp news Hwf Ho Hn) as [[X E1]|[(_ & _ & E1)|(_ & _ & w1 & k & Hk & Hr & _ & Hb & _ & _ & [(_ & E1 & _)|(_ & E1 & _)])]]; rewrite E in E1; try discriminate.
  { exfalso. apply X. apply (same_lengths_eval fs (vctrls fs vs) news); [eapply vok_lengths, (proj1 Ho)|].
    pose proof (Hmix (length news)) as Hm. unfold mixed in Hm. rewrite firstn_all in Hm. rewrite skipn_all2, app_nil_r in Hm; [exact Hm|].
    pose proof (vctrls_ok fs vs _ (proj1 Ho)) as Hvc. pose proof (Forall2_len _ _ _ Hn). pose proof (Forall2_len _ _ _ Hvc). lia. }
  injection E1 as <-. pose proof Ho as (Hv & Hp & Hrp).
  assert (Hm : ctrls_ok fs (mixed k news (vctrls fs vs))) by (apply ctrls_ok_mixed; [exact Hn|eapply vctrls_ok; exact Hv]).
  destruct (with_ctrls_ok fs vs _ _ _ Hv Hm (Hmix k)) as (C1 & C2 & C3).
  set (vs' := with_ctrls fs vs (mixed k news (vctrls fs vs))) in *.
  assert (Hsh : vshape (VRec vs') = vshape (VRec vs)) by (cbn [vshape]; now rewrite C2).
  assert (Ho' : obj_at w' t a (VRec vs')).
  { split; [cbn [t vok]; now rewrite C3|]. split; [unfold vsize; rewrite Hsh, Hb; exact Hp|exact Hr]. }
  exists k, (sp_lay t (vshape (VRec vs))). split; [now apply view_ok|]. split; [now apply calc_layout_ok|].
  split; [rewrite <- Hsh; now apply calc_layout_ok|exact Hb].
Qed.
Theorem C37_single_controller : forall hs ha fs w a vs news dp w',
  let t := TRec KStruct hs ha fs in
  wf_ty t -> obj_at w t a (VRec vs) -> ctrls_ok fs news -> (length (ctrl_fields fs) <= 1)%nat ->
  try_set_layout_controllers fs a dp news w = Panic w' ->
  exists vs' l, view t a w' = Ok (VRec vs') w' /\
    calc_layout t a w = Ok l w /\ calc_layout t a w' = Ok l w' /\ w_blocks w' = w_blocks w.
Proof.
  intros hs ha fs w a vs news dp w' t Hwf Ho Hn H1 E.
  destruct (lengths_eval_dec fs news) as [Hz|Hz].
  2:{ destruct (C36_length_panics hs ha fs w a vs news dp Hwf Ho Hn Hz) as (w2 & l & E2 & _ & V & L1 & L2 & B & _).
      rewrite E in E2. injection E2 as <-. exists vs, l. auto. }
  assert (Hs : same_lengths fs (vctrls fs vs) news).
  { destruct (try_set_cases hs ha fs w a vs dp news Hwf Ho Hn) as [[X _]|[(_ & _ & E1)|(_ & H & _)]]; [contradiction|congruence|exact H]. }
  assert (Hself : forall c, same_lengths fs c c) by (intros c; clear; induction fs; cbn; auto).
  assert (Hmix : forall k, same_lengths fs (vctrls fs vs) (mixed k news (vctrls fs vs))).
  { intros k. pose proof (vctrls_ok fs vs _ (proj1 Ho)) as Hvc.
    assert (Ln : length news = length (ctrl_fields fs)) by (rewrite <- (map_length snd), <- ctrl_types_eq; symmetry; eapply Forall2_len; exact Hn).
    assert (Lv : length (vctrls fs vs) = length (ctrl_fields fs)) by (rewrite <- (map_length snd (ctrl_fields fs)), <- ctrl_types_eq; symmetry; eapply Forall2_len; exact Hvc).
    destruct k as [|k]; [apply Hself|]. replace (mixed (S k) news (vctrls fs vs)) with news; [exact Hs|].
    unfold mixed. rewrite firstn_all2 by lia. rewrite skipn_all2 by lia. now rewrite app_nil_r. }
  destruct (C37_try_set_panic_partial hs ha fs w a vs news dp w' Hwf Ho Hn Hmix E) as (k & l & H). eexists; exists l; exact H.
Qed.
(** A struct with one controller with a destructor, whose destructor panics. *)
Definition fs_one : flds := FLength 0 f_box (FArr u8 lf_first FNil).
Definition w_one : world :=
  match vbox_new (TRec KStruct 8 8 fs_one) (IRec [IFixed c_1; IArrF (ACopyFrom [by_ [7]])]) w_start with Ok _ w => w | _ => w_start end.
Example C37_partial_meets :
  wf_ty (TRec KStruct 8 8 fs_one) /\ obj_at w_one (TRec KStruct 8 8 fs_one) 4096 (VRec [VFix c_1; VArr [by_ [7]]]) /\
  ctrls_ok fs_one [by_ [1;0;0;0;0;0;0;9]] /\ (length (ctrl_fields fs_one) <= 1)%nat /\
  match try_set_layout_controllers fs_one 4096 panics_on_1 [by_ [1;0;0;0;0;0;0;9]] w_one with Panic _ => True | _ => False end.
Proof.
  assert (Hb : w_blocks w_one = [mkB 4096 9 8 true]) by (vm_compute; reflexivity).
  split; [|split; [|split; [repeat constructor|split; [cbn; lia|vm_compute; exact I]]]].
  - cbn [wf_ty wf_flds fs_one]. unfold header_ok; cbn [head_fields]. conc; try apply u8_ok; try apply box_ok; try apply lf_first_ok; conc; try in_tac.
  - split; [cbn; conc|]. split; [|cbn [repr repr_flds fs_one]; conc]. unfold place_ok. rewrite Hb. conc. right. eexists. split; [left; reflexivity|]. conc.
Qed.
