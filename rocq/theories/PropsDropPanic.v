(** PropsDropPanic.v - C51: destructors that panic. *)
From Verif Require Import DropPanicProofs PropsProgram PropsAccount.

(** When no destructor panics, the functions of DropPanic.v are those of the main model. *)
Lemma dlift_dbind {S A B} (m : M S A) (k : A -> M S B) (k' : A -> D S B) s :
  (forall a s, k' a s = dlift (k a) s) -> dbind (dlift m) k' s = dlift (bind m k) s.
Proof. intros H. unfold dbind, dlift, bind. destruct (m s); auto. apply H. Qed.
Lemma dlift_dbind2 {S A B} (m : M S A) (m' : D S A) (k : A -> M S B) (k' : A -> D S B) s :
  m' s = dlift m s -> (forall a s, k' a s = dlift (k a) s) -> dbind m' k' s = dlift (bind m k) s.
Proof. intros E H. unfold dbind. rewrite E. apply (dlift_dbind m k k' s H). Qed.
Lemma leaf_same dp f a w : (forall v, dp v = false) -> drop_leaf_p dp f a w = dlift (drop_leaf f a) w.
Proof.
  intros H. unfold drop_leaf_p, drop_leaf. destruct (f_drop f); [|reflexivity].
  apply dlift_dbind. intros bs w'. unfold run_destructor. rewrite H. reflexivity.
Qed.
Lemma unwind_same dp f a c w : (forall v, dp v = false) -> dunwind (drop_leaf_p dp f a) c w = dlift (drop_leaf f a) w.
Proof.
  intros H. unfold dunwind. rewrite (leaf_same dp f a w H). unfold dlift, drop_leaf, load, check_ref, emit, bind, ret.
  destruct (f_drop f); [|reflexivity]. destruct (a =? 0); [reflexivity|]. destruct (negb (a mod f_align f =? 0)); [reflexivity|].
  destruct (negb (inb w a (f_size f))); reflexivity.
Qed.
Lemma slice_same dp f (addr : N -> N) l : (forall v, dp v = false) -> forall w,
  drop_seq_p dp f (map addr l) w = dlift (for_each (fun i => drop_leaf f (addr i)) l) w.
Proof.
  intros H. induction l as [|i l IH]; intros w; cbn [map drop_seq_p for_each]; [reflexivity|].
  apply dlift_dbind2; [now apply unwind_same|]. intros _ w'. apply IH.
Qed.
Lemma array_same dp f a off n w : (forall v, dp v = false) -> drop_array_p dp f a off n w = dlift (drop_array f a off n) w.
Proof. intros H. unfold drop_array_p, drop_array. apply dlift_dbind. intros _ w'. now apply slice_same. Qed.
Lemma vdrop_same dp : (forall v, dp v = false) ->
  (forall t a l w, vdrop_p dp t a l w = dlift (vdrop t a l) w) /\
  (forall fs a es w, vdrop_flds_p dp fs a es w = dlift (vdrop_flds fs a es) w).
Proof.
  intros H. apply vty_flds_ind.
  - intros f a l w. destruct l; try reflexivity. now apply leaf_same.
  - intros f k a l w. destruct l; try reflexivity. now apply array_same.
  - intros t IH a l w. cbn [vdrop_p vdrop]. destruct (needs_vdrop t); [apply IH|reflexivity].
  - intros kd hs ha fs IH a l w. destruct l; try reflexivity. cbn [vdrop_p vdrop]. destruct kd; [destruct (fneeds fs); [apply IH|reflexivity]|apply IH].
  - intros a es w. reflexivity.
  - intros off f r IH a es w. cbn [vdrop_flds_p vdrop_flds]. apply dlift_dbind2; [now apply leaf_same|]. intros _ w'. apply IH.
  - intros off f r IH a es w. cbn [vdrop_flds_p vdrop_flds]. apply dlift_dbind2; [now apply leaf_same|]. intros _ w'. apply IH.
  - intros t IHt r IH a es w. destruct es as [|[off l] es]; [reflexivity|]. cbn [vdrop_flds_p vdrop_flds].
    apply dlift_dbind. intros _ w1. apply dlift_dbind2; [apply IHt|]. intros _ w2. apply IH.
  - intros f lf r IH a es w. destruct es as [|[off l] es]; [reflexivity|]. destruct l; try reflexivity. cbn [vdrop_flds_p vdrop_flds].
    apply dlift_dbind2; [now apply array_same|]. intros _ w'. apply IH.
Qed.
Lemma owned_same dp t a w : (forall v, dp v = false) -> owned_drop_p dp t a w = dlift (owned_drop t a) w.
Proof.
  intros H. unfold owned_drop_p, owned_drop. apply dlift_dbind. intros _ w1. apply dlift_dbind. intros l w2. now apply vdrop_same.
Qed.
Lemma box_same dp t a w : (forall v, dp v = false) -> vbox_drop_p dp t a w = dlift (vbox_drop t a) w.
Proof.
  intros H. unfold vbox_drop_p, vbox_drop. apply dlift_dbind. intros _ w1. apply dlift_dbind. intros l w2.
  apply dlift_dbind2; [now apply vdrop_same|]. reflexivity.
Qed.
Lemma elems_same dp t n : (forall v, dp v = false) -> forall it w, drop_elems_loop_p dp t n it w = dlift (drop_elems_loop t n it) w.
Proof.
  intros H. induction n as [|n IH]; intros it w; cbn [drop_elems_loop_p drop_elems_loop]; [reflexivity|].
  apply dlift_dbind. intros r w1. destruct (fst r); [|reflexivity]. apply dlift_dbind2; [now apply owned_same|]. intros _ w2. apply IH.
Qed.
Lemma owned_elems_same dp t it w : (forall v, dp v = false) -> owned_elems_drop_p dp t it w = dlift (owned_elems_drop t it) w.
Proof. intros H. unfold owned_elems_drop_p, owned_elems_drop. destruct (_ || _); [now apply elems_same|reflexivity]. Qed.
Lemma dlft_same {A} (m : D world A) (m' : M world A) s : (forall w, m w = dlift m' w) -> dlft m s = dlift (lft m') s.
Proof. intros H. destruct s as [w s]. unfold dlft, dlift, lft. rewrite H. unfold dlift. destruct (m' w); reflexivity. Qed.
Lemma drain_same dp t chk s : (forall v, dp v = false) -> drain_p dp t chk s = dlift (it <- take_elems t chk ;; lft (owned_elems_drop t it)) s.
Proof. intros H. unfold drain_p. apply dlift_dbind. intros it s1. apply dlft_same. intros w. now apply owned_elems_same. Qed.
Lemma bind_bind {S A B C} (m : M S A) (k : A -> M S B) (k2 : B -> M S C) s : bind (bind m k) k2 s = bind m (fun a => bind (k a) k2) s.
Proof. unfold bind. destruct (m s); reflexivity. Qed.
Lemma seq_same dp t chk s : (forall v, dp v = false) -> seq_drop_p dp t chk s = dlift (seq_drop t chk) s.
Proof.
  intros H. unfold seq_drop_p, seq_drop. apply dlift_dbind. intros s1 s2. destruct (s_cap s1 =? 0); [reflexivity|].
  assert (G : forall k s, dlift (it <- take_elems t chk ;; lft (owned_elems_drop t it) ;;; k) s =
     dlift ((it <- take_elems t chk ;; lft (owned_elems_drop t it)) ;;; k) s :> dres _ unit)
    by (intros k s3; unfold dlift; now rewrite bind_bind).
  rewrite G. apply dlift_dbind2; [now apply drain_same|]. intros _ s3. apply dlift_dbind. intros s4 s5. apply dlift_dbind. intros x s6.
  apply dlift_dbind. intros y s7. reflexivity.
Qed.
Lemma assign_same dp t a p new w : (forall v, dp v = false) -> assign_p dp t a p new w = dlift (assign t a p new) w.
Proof.
  intros H. unfold assign_p, assign. apply dlift_dbind. intros q w1. apply dlift_dbind2; [now apply unwind_same|]. reflexivity.
Qed.
Lemma values_same dp l : (forall v, dp v = false) -> forall w, drop_values_p dp l w = dlift (for_each (fun '(f, v) => drop_value f v) l) w.
Proof.
  intros H. induction l as [|[f v] l IH]; intros w; cbn [drop_values_p for_each]; [reflexivity|].
  unfold dbind, dunwind, drop_value_p, drop_value, run_destructor, dbind, dlift, emit. rewrite H.
  destruct (f_drop f); unfold bind, ret, dret; rewrite IH; unfold dlift; reflexivity.
Qed.
Lemma ctrls_same dp a : (forall v, dp v = false) -> forall cf news w, set_ctrls_p dp a cf news w = dlift (set_ctrls a dp cf news) w.
Proof.
  intros H. induction cf as [|[off f] cf IH]; intros [|v news] w; try reflexivity. cbn [set_ctrls_p set_ctrls].
  apply dlift_dbind. intros old w1. rewrite H, andb_false_r. unfold dbind, dunwind, drop_value_p, drop_value, run_destructor, dbind, dlift, emit. rewrite H.
  unfold bind, ret, dret.
  assert (Hs : forall w2, match store (wrapping_add a off) (f_align f) v w2 with Panic _ => False | _ => True end).
  { intros w2. unfold store, check_ref, bind, ret. destruct (wrapping_add a off =? 0); [exact I|]. destruct (negb (wrapping_add a off mod f_align f =? 0)); [exact I|].
    destruct (negb (inb w2 (wrapping_add a off) (len v))); exact I. }
  destruct (f_drop f);
    match goal with |- context [store ?x ?y ?z ?w0] => pose proof (Hs w0) as H2; destruct (store x y z w0) as [[] w3|w3|u] end; try contradiction; try reflexivity; rewrite IH; reflexivity.
Qed.
Lemma set_ctrls_dp a dp dp' : (forall v, dp v = dp' v) -> forall cf news w, set_ctrls a dp cf news w = set_ctrls a dp' cf news w.
Proof.
  intros H. induction cf as [|[off f] cf IH]; intros [|v news] w; try reflexivity. cbn [set_ctrls]. unfold bind.
  destruct (load _ _ _ w) as [old w1|w1|u]; try reflexivity. destruct (drop_value f old w1) as [[] w2|w2|u]; try reflexivity.
  destruct (store _ _ v w2) as [[] w3|w3|u]; try reflexivity. rewrite (H old). destruct (f_drop f && dp' old); [reflexivity|]. apply IH.
Qed.
Lemma try_set_same dp fs a news w : (forall v, dp v = false) ->
  try_set_p dp fs a news w = dlift (try_set_layout_controllers fs a (fun _ => false) news) w.
Proof.
  intros H. unfold try_set_p, try_set_layout_controllers. apply dlift_dbind. intros before w1. apply dlift_dbind2.
  - unfold dunwind, on_unwind, dlift. destruct (mapM _ _ w1) as [x w2|w2|u]; try reflexivity.
    rewrite (values_same dp _ H w2). unfold dlift. destruct (for_each _ _ w2) as [x w3|w3|u] eqn:E; try reflexivity.
    exfalso. revert w2 w3 E. generalize (combine (map snd (ctrl_fields fs)) news). induction l as [|[f v] l IH]; intros w2 w3; cbn [for_each]; [discriminate|].
    unfold bind, drop_value, emit, ret. destruct (f_drop f); apply IH.
  - intros valid w2. destruct (forallb _ valid).
    + apply dlift_dbind2; [|reflexivity]. rewrite (ctrls_same dp a H). unfold dlift. now rewrite (set_ctrls_dp a dp (fun _ => false) H).
    + apply dlift_dbind2; [|reflexivity]. now apply values_same.
Qed.
(** For taking elements see [C51_no_panics_take]. *)
Theorem C51_no_panics : forall dp o c,
  (forall v, dp v = false) -> match o with OTake _ _ _ => False | _ => True end -> exec_p dp o c = dlift (exec o) c.
Proof.
  intros dp o [w sl] H Hnt.
  assert (Hc : forall (m : D world unit) m' k kp, (forall w, m w = dlift m' w) -> call_p m k kp w = dlift (fun '(w, sl) => call m' k kp w) (w, sl)).
  { intros m m' k kp E. unfold call_p, call, dlift. rewrite E. unfold dlift. destruct (m' w); reflexivity. }
  assert (Hs : forall (m : D (world * sq) unit) m' s k kp, (forall x, m x = dlift m' x) ->
     call_seq_p m s k kp w = dlift (fun '(w, sl) => call_seq m' s k kp w) (w, sl)).
  { intros m m' s k kp E. unfold call_seq_p, call_seq, dlift. rewrite E. unfold dlift. destruct (m' (w, s)) as [a []|[]|]; reflexivity. }
  assert (Ho : forall r : res config out, match r with Ok r c => DOk r c | Panic c =>
     if existsb dp (destroyed (skipn (length (w_log w)) (w_log (fst c)))) then DAbort else DPanic c | UB u => DUB u end =
     match r with Ok a s' => DOk a s' | Panic s' => DPanic s' | UB u => DUB u end).
  { intros r. destruct r as [x c|c|u]; try reflexivity. assert (E : forall l, existsb dp l = false) by (intros l; induction l; cbn; rewrite ?H; auto).
    now rewrite E. }
  assert (Hcb : forall (m : D world bool) m' k kp, (forall w, m w = dlift m' w) -> call_p m k kp w = dlift (fun '(w, sl) => call m' k kp w) (w, sl)).
  { intros m m' k kp E. unfold call_p, call, dlift. rewrite E. unfold dlift. destruct (m' w); reflexivity. }
  destruct o; cbn [exec_p]; try apply Ho; try contradiction.
  - unfold dlift. cbn [exec]. destruct (nth_error sl h) as [[]|]; try reflexivity; (apply Hc || apply Hs); intros; [now apply box_same|now apply owned_same|now apply seq_same].
  - unfold dlift. cbn [exec]. apply Hc. intros w1. apply dlift_dbind. intros r w2. now apply assign_same.
  - unfold dlift. cbn [exec]. apply Hcb. intros w1. apply dlift_dbind. intros r w2. destruct (fst r) as [| | |[] ? ? ?]; try reflexivity. now apply try_set_same.
  - unfold dlift. cbn [exec]. destruct (nth_error sl h) as [[]|]; try reflexivity. apply Hs. intros x. now apply drain_same.
Qed.

(** ** one object *)

(** Dropping an object destroys its values in the usual order, each at most once, until a destructor
    panics: then the other elements of the same array are still destroyed, all later values are
    leaked. The process is aborted exactly if this comes upon an array two of whose elements have
    panicking destructors. Nothing else changes. *)
Theorem C51_drop_owned : forall dp t w a v,
  wf_ty t -> obj_at w t a v ->
  match owned_drop_p dp t a w with
  | DOk _ w' => existsb dp (vdrops t v) = false /\ w' = add_log w (map EDrop (vdrops t v))
  | DPanic w' => exists d leaked, vdrops t v = d ++ leaked /\ length (filter dp d) = 1%nat /\
      w' = add_log w (map EDrop d) /\ drop_groups dp (vgroups t v) = (Unwinds, d)
  | DAbort => fst (drop_groups dp (vgroups t v)) = Aborts
  | DUB _ => False
  end.
Proof.
  intros dp t w a v Hwf Ho. rewrite (owned_drop_p_ok dp t w a v Hwf Ho). unfold dropped.
  pose proof (groups_prefix dp (vgroups t v)) as HG. rewrite (proj1 vgroups_vdrops) in HG.
  destruct (drop_groups dp (vgroups t v)) as [[] d]; [destruct HG as [-> HG]; auto| |reflexivity].
  destruct HG as [(rest & E) H1]. exists d, rest. auto.
Qed.
(** Dropping a VBox: if a destructor panics, the storage of the box stays allocated. *)
Theorem C51_drop_box : forall dp t w a v,
  wf_ty t -> box_at w t a v ->
  match vbox_drop_p dp t a w with
  | DOk _ w' => existsb dp (vdrops t v) = false /\ vbox_drop t a w = Ok tt w'
  | DPanic w' => exists d leaked, vdrops t v = d ++ leaked /\ length (filter dp d) = 1%nat /\
      w' = add_log w (map EDrop d) /\ drop_groups dp (vgroups t v) = (Unwinds, d)
  | DAbort => fst (drop_groups dp (vgroups t v)) = Aborts
  | DUB _ => False
  end.
Proof.
  intros dp t w a v Hwf [Ho Hb]. rewrite (vbox_drop_p_ok dp t w a v Hwf Ho Hb), (vbox_drop_ok t w a v Hwf Ho Hb).
  pose proof (groups_prefix dp (vgroups t v)) as HG. rewrite (proj1 vgroups_vdrops) in HG.
  destruct (drop_groups dp (vgroups t v)) as [[] d]; [destruct HG as [-> HG]; auto| |reflexivity].
  destruct HG as [(rest & E) H1]. exists d, rest. auto.
Qed.

(** ** whole programs *)
Lemma first_bad_fun dp fs cs j k : first_bad dp fs cs j -> first_bad dp fs cs k -> j = k.
Proof.
  intros [A1 A2] [B1 B2]. destruct (Nat.lt_trichotomy j k) as [H|[H|H]]; [|exact H|].
  - rewrite (B2 j H) in A1. discriminate.
  - rewrite (A2 k H) in B1. discriminate.
Qed.
Lemma astep_p_fun dp σ o r σ1 d1 σ2 d2 : astep_p dp σ o r σ1 d1 -> astep_p dp σ o r σ2 d2 -> σ1 = σ2.
Proof.
  intros H1 H2.
  assert (Hno : forall h σ' d, astep σ (ODrop h) Panicked σ' d -> False) by (intros h σ' d A; inversion A).
  assert (Hno2 : forall h σ' d, astep σ (ODrain h) Panicked σ' d -> False) by (intros h σ' d A; inversion A).
  assert (Hno3 : forall pl q new t v b σ' d, at_place σ pl = Some (t, v) -> leaf v q = Some b -> astep σ (OAssign pl q new) Panicked σ' d -> False)
    by (intros pl q new t v b σ' d H3 H4 A; inversion A; congruence).
  assert (Hno4 : forall pl news hs ha fs vs σ' d, at_place σ pl = Some (TRec KStruct hs ha fs, VRec vs) -> lengths_eval fs news ->
     astep σ (OControllers pl news) Panicked σ' d -> False) by (intros pl news hs ha fs vs σ' d H3 H4 A; inversion A; subst; congruence).
  assert (Htk : forall h cmds keep t chk vs old σ' d, nth_error σ h = Some (ASeq t chk vs old) -> astep σ (OTake h cmds keep) Panicked σ' d ->
     σ' = replace_nth σ h (ASeq t chk [] (old ++ starts t vs 0 ++ [total t vs]))) by (intros h cmds keep t chk vs old σ' d H3 A; inversion A; subst; congruence).
  destruct H1 as [o r σ1 d1 A1 E1|h v d1 V1 N1 G1|h t chk vs old d1 V1 G1|pl q new t v f b V1 L1 L2 F1 P1
      |pl news hs ha fs vs k V1 Z1 S1 F1 X1|pl news hs ha fs vs V1 Z1 S1 X1|h cmds keep t chk vs old d1 V1 X1];
    inversion H2 as [o' r' σ2' d2' A2 E2|h' v' d2' V2 N2 G2|h' t' chk' vs' old' d2' V2 G2|pl' q' new' t' v' f' b' V2 L1' L2' F2 P2
      |pl' news' hs' ha' fs' vs' k' V2 Z2 S2 F2 X2|pl' news' hs' ha' fs' vs' V2 Z2 S2 X2|h' cmds' keep' t' chk' vs' old' d2' V2 X2]; subst;
    try (exfalso; eauto; fail); try congruence.
  - eapply astep_fun; eauto.
  - eapply Htk; eauto.
  - rewrite V1 in V2. injection V2 as <- <- <- <-. now rewrite (first_bad_fun _ _ _ _ _ F1 F2).
  - symmetry. eapply Htk; eauto.
Qed.
Lemma inv_start w : w_blocks w = [] -> Inv w [] [] 0.
Proof. intros H. apply reach_inv. now constructor. Qed.
Lemma reach_p_inv dp w sl σ n : reach_p dp w sl σ n -> Inv w sl σ n.
Proof.
  induction 1 as [w Hb|w sl σ n o r w' sl' σ' d H IH Hal E Hs|w sl σ n o w' sl' σ' d H IH Hal E Hs].
  - now apply inv_start.
  - pose proof (exec_p_ok dp w sl σ n o IH Hal) as HS. rewrite E in HS. destruct HS as (σ1 & evs & A1 & _ & A2).
    now rewrite (astep_p_fun _ _ _ _ _ _ _ _ Hs A1).
  - pose proof (exec_p_ok dp w sl σ n o IH Hal) as HS. rewrite E in HS. destruct HS as (σ1 & evs & A1 & _ & A2).
    now rewrite (astep_p_fun _ _ _ _ _ _ _ _ Hs A1).
Qed.
(** Taking elements, in any state a program can reach. *)
Lemma take_cmd_same dp t c s : (forall v, dp v = false) -> take_cmd_p dp t c s = dlift (take_cmd t c) s.
Proof.
  intros H. destruct c as [| |j|j q new|j|j]; cbn [take_cmd_p]; try reflexivity; cbn [take_cmd].
  - apply dlift_dbind. intros a s1. apply dlift_dbind. intros _ [w2 s2]. apply dlift_dbind2; [|reflexivity].
    unfold dlft_t, dlift, lft_t. rewrite (assign_same dp t a q new w2 H). unfold dlift. destruct (assign t a q new w2); reflexivity.
  - apply dlift_dbind. intros a s1. apply dlift_dbind. intros _ [w2 s2]. apply dlift_dbind2; [|reflexivity].
    unfold dlft_t, dlift, lft_t. rewrite (owned_same dp t a w2 H). unfold dlift. destruct (owned_drop t a w2); reflexivity.
Qed.
Lemma take_cmds_same dp t : (forall v, dp v = false) -> forall cmds s, dmapM (take_cmd_p dp t) cmds s = dlift (mapM (take_cmd t) cmds) s.
Proof.
  intros H. induction cmds as [|c cmds IH]; intros s; cbn [dmapM mapM]; [reflexivity|].
  apply dlift_dbind2; [now apply take_cmd_same|]. intros y s1. apply dlift_dbind2; [apply IH|reflexivity].
Qed.
Lemma take_end_same dp t lo hi keep w it rest l hd : (forall v, dp v = false) -> wf_ty t -> taken w t lo hi it rest l hd ->
  take_end_p dp t keep (it, l) w = dlift (take_end t keep (it, l)) w.
Proof.
  intros H Hwf (_ & _ & _ & HF & _). unfold take_end_p, take_end. cbn [fst snd].
  assert (G : exists w1, for_each (fun o => match o with Some a => owned_drop t a | None => ret tt end) l w = Ok tt w1 /\ drop_held_p dp t l w = DOk tt w1).
  { revert w hd HF. induction l as [|x l IH]; intros w hd HF; inversion HF as [|? y ? hd' Hx HF']; subst.
    - exists w. split; reflexivity.
    - cbn [for_each drop_held_p]. destruct x as [a|], y as [v|]; cbn [holds] in Hx; try contradiction.
      + pose proof (owned_drop_ok t w a v Hwf (proj1 Hx)) as E. rewrite (bind_ok _ _ _ _ _ E).
        destruct (IH (add_log w (map EDrop (vdrops t v))) hd') as (w1 & E1 & E2).
        { clear -HF'. induction HF' as [|x y l hd Hx _ IH]; constructor; auto. }
        exists w1. split; [exact E1|]. unfold dbind, dunwind. rewrite (owned_same dp t a w H). unfold dlift. rewrite E. exact E2.
      + destruct (IH w hd' HF') as (w1 & E1 & E2). exists w1. split; [exact E1|exact E2]. }
  destruct G as (w1 & E1 & E2). unfold dbind, dunwind. rewrite E2. unfold dlift. rewrite (bind_ok _ _ _ _ _ E1).
  destruct keep; [reflexivity|]. rewrite (owned_elems_same dp t it w1 H). reflexivity.
Qed.
Theorem C51_no_panics_take : forall dp w sl σ n h cmds keep,
  (forall v, dp v = false) -> reach_p dp w sl σ n -> allowed_p dp σ (OTake h cmds keep) ->
  exec_p dp (OTake h cmds keep) (w, sl) = dlift (exec (OTake h cmds keep)) (w, sl).
Proof.
  intros dp w sl σ n h cmds keep H HR [Hal _]. apply reach_p_inv in HR.
  inversion Hal as [| | | | | | | | | | | | | | | | | |? ? ? t chk vs old Hh Hok| | |]; subst.
  destruct (take_start w sl σ n h t chk vs old HR Hh) as (s & s' & w1 & it & lo & hi & Hs & Hwf & E1 & HT & Hfin).
  pose proof (take_cmds_ok t lo hi Hwf cmds w1 it vs [] [] HT) as HC.
  unfold dlift. cbn [exec_p exec]. rewrite Hs. unfold call_seq_p, call_seq. rewrite (dlift_bind _ _ _ _ _ E1), (bind_ok _ _ _ _ _ E1).
  unfold dlft, lft, take_run_p, take_run. rewrite (take_cmds_same dp t H). unfold dlift.
  destruct (mapM (take_cmd t) cmds (w1, (it, []))) as [outs [w2 [it2 l2]]|[w2 [it2 l2]]|u] eqn:Em;
    destruct (take_eval t cmds vs []) as [outs' rest hd d|rest hd d|] eqn:Ev; cbn [take_res] in HC; try contradiction; try congruence.
  - destruct HC as (-> & HT2 & Tk). destruct (take_end_ok t lo hi keep w2 it2 rest l2 hd Hwf HT2) as (w3 & E3 & Tk3).
    rewrite (bind_ok _ _ _ _ _ E3). unfold dbind. rewrite (take_end_same dp t lo hi keep w2 it2 rest l2 hd H Hwf HT2). unfold dlift. rewrite E3. reflexivity.
  - destruct HC as (HT2 & Tk). destruct (take_end_ok t lo hi false w2 it2 rest l2 hd Hwf HT2) as (w3 & E3 & Tk3).
    rewrite (bind_ok _ _ _ _ _ E3). unfold dunwind. rewrite (take_end_same dp t lo hi false w2 it2 rest l2 hd H Hwf HT2). unfold dlift. rewrite E3. reflexivity.
Qed.
(** Any program whose destructors may panic, and that does one more thing: no undefined behaviour
    (except in VBox::new when the allocator refuses, C28); the operation returns, panics or aborts as
    the account of DropPanicSpec.v says, and leaves the program in a state the account describes. *)
Theorem C51_program_safe : forall dp w sl σ n o,
  reach_p dp w sl σ n -> allowed_p dp σ o ->
  match exec_p dp o (w, sl) with
  | DOk r (w', sl') => exists σ' evs, w_log w' = w_log w ++ evs /\ astep_p dp σ o (Done r) σ' (drops_of evs) /\
      reach_p dp w' sl' σ' (match o with OForget _ => S n | _ => n end)
  | DPanic (w', sl') => exists σ' evs, w_log w' = w_log w ++ evs /\ astep_p dp σ o Panicked σ' (drops_of evs) /\
      reach_p dp w' sl' σ' (leaks o n)
  | DAbort => aborts dp σ o
  | DUB u => u = UNull /\ exists t p i, o = ONewBox t p /\ den σ t p i /\
      forall a, w_alloc w (w_tick w) (isize t i) (sp_align t) = Some a ->
        valid_answer (w_blocks w) a (isize t i) (sp_align t) = false
  end.
Proof.
  intros dp w sl σ n o HR Hal. pose proof (exec_p_ok dp w sl σ n o (reach_p_inv _ _ _ _ _ HR) Hal) as H.
  destruct (exec_p dp o (w, sl)) as [r [w' sl']|[w' sl']| |u] eqn:E; cbn [step_res_p] in H; unfold step_ok_p in H.
  - destruct H as (σ' & evs & A & L & _). exists σ', evs. split; [exact L|]. split; [exact A|]. eapply RP_done; eauto.
  - destruct H as (σ' & evs & A & L & _). exists σ', evs. split; [exact L|]. split; [exact A|]. eapply RP_panicked; eauto.
  - exact H.
  - exact H.
Qed.
(** The process is aborted exactly when the account says so (operations that construct objects are
    different: there it also depends on the allocator whether they panic). *)
Lemma ctrls_bad dp fl : forall cs j, ctrl_panics dp fl cs j = true -> existsb dp (drops_of (ctrl_drops fl cs)) = true.
Proof.
  induction fl as [|f fl IH]; intros [|c cs] j; unfold ctrl_panics; try (destruct j; discriminate).
  { cbn [nth_error]. destruct (nth_error (f :: fl) j); destruct j; discriminate. }
  cbn [ctrl_drops]. rewrite drops_app, existsb_app. destruct j as [|j]; cbn [nth_error].
  - unfold drop_events. destruct (f_drop f); [|discriminate]. cbn. intros ->. reflexivity.
  - intros H. rewrite (IH cs j H). apply orb_true_r.
Qed.
Lemma groups_quiet dp gs : existsb dp (concat gs) = false -> drop_groups dp gs = (Survives, concat gs).
Proof.
  intros H. pose proof (groups_prefix dp gs) as HG. destruct (drop_groups dp gs) as [[] d].
  - now destruct HG as [-> _].
  - destruct HG as [(rest & E) HG]. exfalso. apply panics_none in H. rewrite E in H. unfold panics in *. rewrite filter_app, app_length in H. lia.
  - exfalso. apply panics_none in H. lia.
Qed.
Definition tdrops (r : tres) : list (list cell) := match r with TDone _ _ _ d | TPanic _ _ d => d | TBad => [] end.
Lemma take_eval_quiet dp t : forall cmds rest hd, existsb dp (tdrops (take_eval t cmds rest hd)) = false -> take_eval t cmds rest hd <> TBad ->
  take_eval_p dp t cmds rest hd = Some (take_eval t cmds rest hd).
Proof.
  assert (Hthen : forall o d e e', existsb dp (tdrops (then_t o d e)) = false -> then_t o d e <> TBad ->
    (existsb dp (tdrops e) = false -> e <> TBad -> e' = Some e) -> option_map (then_t o d) e' = Some (then_t o d e)).
  { intros o d e e' Hd Hb H. rewrite H; [reflexivity| |intros ->; apply Hb; reflexivity].
    destruct e; cbn [then_t tdrops] in *; rewrite ?existsb_app in Hd; try (apply orb_false_iff in Hd; apply Hd); reflexivity. }
  induction cmds as [|c cmds IH]; intros rest hd Hq Hb; [reflexivity|].
  destruct c as [| |j|j q new|j|j]; cbn [take_eval take_eval_p] in *.
  - destruct rest as [|v rest]; (apply Hthen; [exact Hq|exact Hb|exact (IH _ _)]).
  - (apply Hthen; [exact Hq|exact Hb|exact (IH _ _)]).
  - destruct (nth_error hd j) as [[v|]|]; try (exfalso; apply Hb; reflexivity). (apply Hthen; [exact Hq|exact Hb|exact (IH _ _)]).
  - destruct (nth_error hd j) as [[v|]|]; try (exfalso; apply Hb; reflexivity). destruct (mut_leaf t q) as [f|]; [|exfalso; apply Hb; reflexivity].
    destruct (len new =? f_size f); [|exfalso; apply Hb; reflexivity]. destruct (leaf v q) as [b|]; [|reflexivity]. cbv zeta.
    assert (Eb : f_drop f && dp b = false).
    { destruct (f_drop f); [|reflexivity]. cbn [andb]. destruct (take_eval t cmds rest (replace_nth hd j (Some (put v q new)))); cbn [then_t tdrops app existsb] in Hq;
        try (apply orb_false_iff in Hq; apply Hq). exfalso. apply Hb. reflexivity. }
    rewrite Eb. apply Hthen; [exact Hq|exact Hb|exact (IH _ _)].
  - destruct (nth_error hd j) as [[v|]|]; try (exfalso; apply Hb; reflexivity).
    assert (Ev : existsb dp (vdrops t v) = false).
    { destruct (take_eval t cmds rest (replace_nth hd j None)); cbn [then_t tdrops] in Hq; try (rewrite existsb_app in Hq; apply orb_false_iff in Hq; apply Hq).
      exfalso. apply Hb. reflexivity. }
    rewrite groups_quiet by (now rewrite (proj1 vgroups_vdrops)). rewrite (proj1 vgroups_vdrops). apply Hthen; [exact Hq|exact Hb|exact (IH _ _)].
  - destruct (nth_error hd j) as [[v|]|]; try (exfalso; apply Hb; reflexivity). (apply Hthen; [exact Hq|exact Hb|exact (IH _ _)]).
Qed.
Lemma drop_end_quiet dp t (keep : bool) hd rest : existsb dp (hd_drops t hd ++ if keep then [] else concat (map (vdrops t) rest)) = false ->
  fst (drop_end dp t keep hd rest) = Survives.
Proof.
  rewrite existsb_app. intros H. apply orb_false_iff in H. destruct H as [H1 H2].
  assert (E1 : exists d, drop_all dp (hd_groups t hd) = (Survives, d)).
  { clear H2. revert H1. unfold hd_drops, hd_groups. induction hd as [|o hd IH]; cbn [map concat drop_all]; [eauto|].
    rewrite existsb_app. intros H. apply orb_false_iff in H. destruct H as [H1 H2]. destruct (IH H2) as (d & ->).
    rewrite groups_quiet; [eauto|]. destruct o; [now rewrite (proj1 vgroups_vdrops)|reflexivity]. }
  destruct E1 as (d & E1). unfold drop_end. rewrite E1. destruct keep; [reflexivity|].
  rewrite groups_quiet; [reflexivity|]. change (existsb dp (concat (groups_of (ASeq t true rest []))) = false). rewrite (groups_owned (ASeq t true rest [])). exact H2.
Qed.
Lemma aborts_no_step dp σ o r σ' d : aborts dp σ o ->
  match o with ODrop _ | ODrain _ | OControllers _ _ => True | OTake h cmds _ => allowed σ o | _ => False end ->
  astep_p dp σ o r σ' d -> False.
Proof.
  assert (Hg : forall v, fst (drop_groups dp (groups_of v)) = Aborts -> existsb dp (owned_drops v) = false -> False).
  { intros v E H. rewrite <- groups_owned in H. rewrite groups_quiet in E by exact H. discriminate. }
  intros B Ho H.
  destruct B as [h v V E|h v V E|o σ1 d1 C A E|pl news hs ha fs vs k V Z S F X|pl news hs ha fs vs V Z S X|h cmds keep t chk vs old V X].
  - inversion H as [? ? ? ? A Q|? v' ? V' N' G'| | | | |]; subst.
    + inversion A; subst. eapply (Hg v); [exact E|congruence].
    + rewrite V in V'. injection V' as <-. now rewrite G' in E.
  - inversion H as [? ? ? ? A Q| |? t chk vs old ? V' G'| | | |]; subst.
    + inversion A as [| | | | | | | | | | | | | | | |? t chk vs old Hs| | | | | | | | | | | | | | | | | | |]; subst. rewrite V in Hs. injection Hs as ->.
      eapply (Hg (ASeq t chk vs old)); [exact E|exact Q].
    + rewrite V in V'. injection V' as ->. now rewrite G' in E.
  - destruct o; try contradiction. inversion A; subst. inversion H as [? ? ? ? A' Q| | | | | |]; subst; try congruence.
    inversion A'; subst; congruence.
  - inversion H as [? ? ? ? A Q| | | |? ? hs' ha' fs' vs' k' V' Z' S' F' X'|? ? hs' ha' fs' vs' V' Z' S' X'|]; subst.
    + inversion A; subst; try congruence.
      match goal with V2 : at_place _ pl = Some (TRec _ ?h ?a ?f, VRec ?l) |- _ => assert (Ef : fs = f /\ vs = l) by (split; congruence) end.
      destruct Ef as [<- <-]. rewrite (ctrls_bad dp _ _ k (proj1 F)) in Q. discriminate.
    + rewrite V in V'. injection V' as <- <- <- <-. rewrite (first_bad_fun _ _ _ _ _ F' F) in X'. congruence.
    + rewrite V in V'. injection V' as <- <- <- <-. contradiction.
  - inversion H as [? ? ? ? A Q| | | |? ? hs' ha' fs' vs' k' V' Z' S' F' X'|? ? hs' ha' fs' vs' V' Z' S' X'|]; subst.
    + inversion A; subst; try congruence. apply panics_none in Q.
      match goal with V2 : at_place _ pl = Some (TRec _ ?h ?a ?f, VRec ?l) |- _ => assert (Ef : fs = f /\ vs = l) by (split; congruence) end.
      destruct Ef as [<- <-]. lia.
    + rewrite V in V'. injection V' as <- <- <- <-. contradiction.
    + rewrite V in V'. injection V' as <- <- <- <-. lia.
  - inversion H as [? ? ? ? A Q| | | | | |? ? ? t' chk' vs' old' ? V' X']; subst.
    + inversion Ho as [| | | | | | | | | | | | | | | | | |? ? ? t1 chk1 vs1 old1 Hh Hok| | |]; subst. rewrite V in Hh. injection Hh as <- <- <- <-.
      unfold take_all in X. pose proof (take_eval_quiet dp t cmds vs []) as HQ.
      inversion A as [| | | | | | | | | | | | | | | | | | | | | | | | | | | | |? ? ? t2 chk2 vs2 old2 outs rest hd d2 V2 E2|? ? ? t2 chk2 vs2 old2 rest hd d2 V2 E2| | | | |]; subst;
        rewrite V in V2; injection V2 as <- <- <- <-; rewrite E2 in HQ; cbn [tdrops] in HQ; rewrite existsb_app in Q; apply orb_false_iff in Q; destruct Q as [Q1 Q2];
        rewrite (HQ Q1) in X by discriminate.
      * pose proof (drop_end_quiet dp t keep hd rest Q2) as HE. destruct (drop_end dp t keep hd rest) as [[] d3]; discriminate.
      * pose proof (drop_end_quiet dp t false hd rest Q2) as HE. destruct (drop_end dp t false hd rest) as [[] d3]; discriminate.
    + rewrite V in V'. injection V' as <- <- <- <-. congruence.
Qed.
Theorem C51_aborts_exactly : forall dp w sl σ n o,
  reach_p dp w sl σ n -> allowed_p dp σ o ->
  match o with ODrop _ | ODrain _ | OControllers _ _ | OTake _ _ _ => True | _ => False end ->
  (exec_p dp o (w, sl) = DAbort <-> aborts dp σ o).
Proof.
  intros dp w sl σ n o HR Hal Ho. pose proof (C51_program_safe dp w sl σ n o HR Hal) as H. split; intros HA.
  - now rewrite HA in H.
  - assert (Hn : forall r σ' d, astep_p dp σ o r σ' d -> False).
    { intros r σ' d. apply aborts_no_step; [exact HA|]. destruct o; try contradiction; auto. apply Hal. }
    destruct (exec_p dp o (w, sl)) as [r [w' sl']|[w' sl']| |u]; [| |reflexivity|].
    + destruct H as (σ' & evs & _ & A & _). exfalso. eapply Hn, A.
    + destruct H as (σ' & evs & _ & A & _). exfalso. eapply Hn, A.
    + destruct H as (_ & t & p & i & -> & _). contradiction.
Qed.
(** Everything the program still holds reads back as the account says, after any number of panics. *)
Theorem C51_reads_back : forall dp w sl σ n,
  reach_p dp w sl σ n ->
  (forall pl t v, at_place σ pl = Some (t, v) -> exec_p dp (ORead pl) (w, sl) = DOk (OutVal v) (w, sl)) /\
  (forall h t chk vs old, nth_error σ h = Some (ASeq t chk vs old) ->
     exec_p dp (OReadSeq h) (w, sl) = DOk (OutVals vs) (w, sl) /\ exec_p dp (OLen h) (w, sl) = DOk (OutNum (len vs)) (w, sl)).
Proof.
  intros dp w sl σ n HR. pose proof (reach_p_inv _ _ _ _ _ HR) as HI. split.
  - intros pl t v Hp. destruct (resolve_ok w sl σ n pl t v HI Hp) as (a & s0 & v0 & E & Hwf & Ho & _).
    cbn [exec_p exec]. unfold call. step E. cbn [fst snd]. now rewrite (view_ok t w a v Hwf Ho).
  - intros h t chk vs old Hh. destruct (seq_slot w sl σ n h t chk vs old HI Hh) as (s & Hah & Hwf & Hz & Hat & Hbits).
    cbn [exec_p exec]. rewrite (proj1 Hah). unfold call. rewrite (seq_contents_ok w t chk s vs Hwf (proj1 HI) Hat). cbn [fst snd].
    split; [reflexivity|]. unfold seq_len. now rewrite (proj1 Hat).
Qed.
(** Heap blocks: live allocations are disjoint, and each is owned by a value the program holds, except
    for at most one per VBox::new that panicked and one per box or sequence whose drop panicked. *)
Theorem C51_bounded_leak : forall dp w sl σ n,
  reach_p dp w sl σ n ->
  wf_blocks (w_blocks w) /\
  exists leaked, (length leaked <= n)%nat /\
    forall b, In b (w_blocks w) -> b_heap b = true ->
      In (b_base b) leaked \/ exists h s, nth_error sl h = Some s /\ In (b_base b) (slot_bases s).
Proof.
  intros dp w sl σ n HR. pose proof (reach_p_inv _ _ _ _ _ HR) as HI. pose proof HI as (Hbl & Hlen & Hrep & Hdis & L & HL & Hleak).
  split; [exact Hbl|]. exists L. split; [exact HL|]. intros b Hin Hh.
  destruct (Hleak b Hin Hh) as [H|(h & s & v & Hah & Hx)]; [left; exact H|right].
  exists h, s. split; [apply Hah|]. pose proof (hblock_base w s v b Hbl (Hrep _ _ _ Hah) Hin Hx) as Hb'.
  destruct s as [t p|t p|t c s|], v as [t' x|t' x|t' c' vs old|]; cbn [slot_bases hblocks] in *; try contradiction.
  - destruct Hb' as [<-|[]]. left. reflexivity.
  - destruct (vsize t x =? 0); [contradiction|]. destruct Hb' as [<-|[]]. discriminate.
  - unfold seq_base. destruct (s_cap s =? 0); [contradiction|]. destruct Hb' as [<-|[]]. left. reflexivity.
Qed.

(** ** no value is destroyed twice *)
Lemma account_p_reach dp w sl σ ins : account_p dp w sl σ ins -> exists n, reach_p dp w sl σ n.
Proof.
  induction 1 as [w Hb _|w sl σ ins o r w' sl' σ' evs ins' H [n IH] Hal E _ Hs _|w sl σ ins o w' sl' σ' evs ins' H [n IH] Hal E _ Hs _].
  - exists 0%nat. now constructor.
  - eexists. eapply RP_done; eauto.
  - eexists. eapply RP_panicked; eauto.
Qed.
Lemma take_balance_p dp t : forall cmds rest hd, Forall (vok t) rest -> Forall (hd_vok t) hd ->
  match take_eval_p dp t cmds rest hd with
  | Some (TDone _ rest' hd' d) | Some (TPanic rest' hd' d) =>
      exists lost, Permutation (rest_drops t rest ++ hd_drops t hd ++ take_ins_p dp t cmds rest hd)
                               (rest_drops t rest' ++ hd_drops t hd' ++ d ++ lost)
  | _ => True
  end.
Proof.
  assert (Hthen : forall o d e A B E, Permutation B (A ++ d ++ E) ->
    match e with
    | Some (TDone _ rest' hd' d') | Some (TPanic rest' hd' d') =>
        exists lost, Permutation A (rest_drops t rest' ++ hd_drops t hd' ++ d' ++ lost)
    | _ => True
    end ->
    match option_map (then_t o d) e with
    | Some (TDone _ rest' hd' d') | Some (TPanic rest' hd' d') =>
        exists lost, Permutation B (rest_drops t rest' ++ hd_drops t hd' ++ d' ++ lost)
    | _ => True
    end).
  { intros o d e A B E HB H. destruct e as [[outs rest' hd' d'|rest' hd' d'|]|]; cbn [option_map then_t]; auto;
      destruct H as (lost & HP); exists (lost ++ E); perm. }
  induction cmds as [|c cmds IH]; intros rest hd HR HH.
  - cbn [take_eval_p take_ins_p]. exists []. perm.
  - destruct c as [| |j|j q new|j|j]; cbn [take_eval_p take_ins_p].
    + destruct rest as [|v rest].
      * refine (Hthen _ [] _ _ _ [] _ (IH [] hd HR HH)). clear; perm.
      * inversion HR; subst. refine (Hthen _ [] _ _ _ [] _ (IH rest (hd ++ [Some v]) _ _)); auto.
        -- unfold rest_drops, hd_drops. cbn [map concat]. rewrite map_app, concat_app. cbn [map concat]. clear; perm.
        -- apply Forall_app. auto.
    + refine (Hthen _ [] _ _ _ [] _ (IH rest hd HR HH)). clear; perm.
    + destruct (nth_error hd j) as [[v|]|]; auto. refine (Hthen _ [] _ _ _ [] _ (IH rest hd HR HH)). clear; perm.
    + destruct (nth_error hd j) as [[v|]|] eqn:Ej; auto. destruct (mut_leaf t q) as [f|] eqn:Em; auto.
      destruct (len new =? f_size f) eqn:En; auto. apply N.eqb_eq in En.
      assert (Hv : vok t v) by (apply nth_error_In in Ej; rewrite Forall_forall in HH; apply (HH _ Ej)).
      destruct (leaf v q) as [b|] eqn:El; cbv zeta.
      * pose proof (hd_replace t hd j v (Some (put v q new)) Ej) as H1. cbn beta iota in H1.
        pose proof (vdrops_put q t v f b new Hv Em El) as H2.
        destruct (f_drop f && dp b) eqn:Eb.
        -- apply andb_true_iff in Eb. destruct Eb as [Ef _]. rewrite Ef in *. exists []. clear - H1 H2. perm.
        -- refine (Hthen _ _ _ _ _ [] _ (IH rest (replace_nth hd j (Some (put v q new))) HR _)).
           ++ clear - H1 H2. destruct (f_drop f); perm.
           ++ apply Forall_replace; [exact HH|]. cbn [hd_vok]. eapply put_vok; eauto.
      * exists []. clear; perm.
    + destruct (nth_error hd j) as [[v|]|] eqn:Ej; auto.
      pose proof (hd_replace t hd j v None Ej) as H1. cbn beta iota in H1.
      pose proof (groups_prefix dp (vgroups t v)) as HG. rewrite (proj1 vgroups_vdrops) in HG.
      destruct (drop_groups dp (vgroups t v)) as [[] d].
      * destruct HG as [-> HG]. rewrite HG. refine (Hthen _ _ _ _ _ [] _ (IH rest (replace_nth hd j None) HR _)).
        -- clear - H1. perm.
        -- now apply Forall_replace.
      * destruct HG as [(lk & Ek) HG]. rewrite Ek, existsb_app. destruct (existsb dp d) eqn:Ed; [|apply panics_none in Ed; congruence].
        cbn [orb]. exists lk. rewrite Ek in H1. clear - H1. perm.
      * exact I.
    + destruct (nth_error hd j) as [[v|]|] eqn:Ej; auto.
      refine (Hthen _ [] _ _ _ (vdrops t v) _ (IH rest (replace_nth hd j None) HR _)).
      * pose proof (hd_replace t hd j v None Ej) as H1. cbn beta iota in H1. clear - H1. perm.
      * now apply Forall_replace.
Qed.
Lemma take_ins_calm dp t : forall cmds rest hd d,
  match take_eval t cmds rest hd with TDone _ _ _ d' | TPanic _ _ d' => d' = d | TBad => False end ->
  existsb dp d = false -> take_ins_p dp t cmds rest hd = take_ins t cmds rest hd.
Proof.
  assert (Hthen : forall o d0 e d (A B : list (list cell)),
     match then_t o d0 e with TDone _ _ _ d' | TPanic _ _ d' => d' = d | TBad => False end -> existsb dp d = false ->
     (forall d, match e with TDone _ _ _ d' | TPanic _ _ d' => d' = d | TBad => False end -> existsb dp d = false -> A = B) ->
     existsb dp d0 = false /\ A = B).
  { intros o d0 e d A B H1 H2 H3. destruct e as [outs r h d'|r h d'|]; cbn [then_t] in H1; try contradiction; subst d;
      rewrite existsb_app in H2; apply orb_false_iff in H2; destruct H2 as [H2 H4]; (split; [exact H2|]); now apply (H3 d'). }
  induction cmds as [|c cmds IH]; intros rest hd d He Hd; [reflexivity|].
  destruct c as [| |j|j q new|j|j]; cbn [take_eval take_ins_p take_ins] in *.
  - destruct rest as [|v rest]; exact (proj2 (Hthen _ _ _ _ _ _ He Hd (IH _ _))).
  - exact (proj2 (Hthen _ _ _ _ _ _ He Hd (IH _ _))).
  - destruct (nth_error hd j) as [[v|]|]; try contradiction. exact (proj2 (Hthen _ _ _ _ _ _ He Hd (IH _ _))).
  - destruct (nth_error hd j) as [[v|]|]; try contradiction. destruct (mut_leaf t q) as [f|]; [|contradiction].
    destruct (len new =? f_size f); [|contradiction]. destruct (leaf v q) as [b|]; [|reflexivity].
    destruct (Hthen _ _ _ _ _ _ He Hd (IH _ _)) as [H1 H2]. rewrite H2.
    replace (f_drop f && dp b) with false; [reflexivity|]. destruct (f_drop f); [|reflexivity]. cbn in *. now rewrite orb_false_r in H1.
  - destruct (nth_error hd j) as [[v|]|]; try contradiction.
    destruct (Hthen _ _ _ _ _ _ He Hd (IH _ _)) as [H1 H2]. now rewrite H1.
  - destruct (nth_error hd j) as [[v|]|]; try contradiction. exact (proj2 (Hthen _ _ _ _ _ _ He Hd (IH _ _))).
Qed.
Lemma drop_end_sub dp t keep hd rest : match drop_end dp t keep hd rest with
  | (Aborts, _) => True
  | (_, d) => exists lost, Permutation (hd_drops t hd ++ rest_drops t rest) (d ++ lost)
  end.
Proof.
  assert (HA : match drop_all dp (hd_groups t hd) with (Aborts, _) => True | (_, d) => exists lost, Permutation (hd_drops t hd) (d ++ lost) end).
  { induction hd as [|o hd IH]; unfold hd_groups, hd_drops; cbn [map drop_all concat]; [exists []; constructor|].
    fold (hd_groups t hd). fold (hd_drops t hd).
    pose proof (groups_prefix dp (match o with Some v => vgroups t v | None => [] end)) as HG.
    replace (concat (match o with Some v => vgroups t v | None => [] end)) with (match o with Some v => vdrops t v | None => [] end) in HG
      by (destruct o; [symmetry; apply (proj1 vgroups_vdrops)|reflexivity]).
    destruct (drop_groups dp _) as [[] d1]; destruct (drop_all dp (hd_groups t hd)) as [[] d2]; try exact I.
    - destruct HG as [-> _], IH as (l2 & H2). exists l2. perm.
    - destruct HG as [-> _], IH as (l2 & H2). exists l2. perm.
    - destruct HG as [(l1 & ->) _], IH as (l2 & H2). exists (l1 ++ l2). perm. }
  unfold drop_end. pose proof (groups_prefix dp (concat (map (vgroups t) rest))) as HG.
  replace (concat (concat (map (vgroups t) rest))) with (rest_drops t rest) in HG
    by (exact (eq_sym (groups_owned (ASeq t true rest [])))).
  destruct (drop_all dp (hd_groups t hd)) as [[] d1]; [|destruct HA as (l1 & H1)|exact I].
  - destruct HA as (l1 & H1). destruct keep; [exists (l1 ++ rest_drops t rest); perm|].
    destruct (drop_groups dp _) as [[] d2]; cbn [fst snd]; [| |exact I].
    + destruct HG as [-> _]. exists l1. perm.
    + destruct HG as [(l2 & ->) _]. exists (l1 ++ l2). perm.
  - destruct (drop_groups dp _) as [[] d2]; try exact I. destruct HG as [-> _]. exists l1. perm.
Qed.
Lemma mixed_vals k : forall fl olds news, length olds = length fl -> length news = length fl ->
  Permutation (drops_of (ctrl_drops fl (mixed k news olds)) ++
               drops_of (ctrl_drops (firstn k fl) olds) ++ drops_of (ctrl_drops (skipn k fl) (skipn k news)))
              (drops_of (ctrl_drops fl olds) ++ drops_of (ctrl_drops fl news)).
Proof.
  unfold mixed. induction k as [|k IH]; intros fl olds news H1 H2; [cbn [firstn skipn app ctrl_drops]; reflexivity|].
  destruct fl as [|f fl], olds as [|o olds], news as [|v news]; try discriminate; [reflexivity|].
  cbn [firstn skipn app ctrl_drops]. rewrite !drops_app. injection H1 as H1. injection H2 as H2. specialize (IH fl olds news H1 H2).
  clear - IH. perm.
Qed.
Lemma step_balance_p dp w sl σ n o r σ' d ins :
  Inv w sl σ n -> allowed σ o -> astep_p dp σ o r σ' d -> enters dp σ o r ins ->
  exists leaked, Permutation (held σ ++ ins) (held σ' ++ d ++ leaked).
Proof.
  intros HI Hal Hs He.
  assert (Hpre : forall v d, drop_groups dp (groups_of v) = (Unwinds, d) -> exists rest, owned_drops v = d ++ rest).
  { intros v d0 E. pose proof (groups_prefix dp (groups_of v)) as HG. rewrite E, groups_owned in HG. apply HG. }
  destruct Hs as [o r σ' d A E|h v d V N G|h t chk vs old d V G|pl q new t v f b V L1 L2 F P
    |pl news hs ha fs vs k V Z S F X|pl news hs ha fs vs V Z S X|h cmds keep t chk vs old d V X].
  - inversion He as [pl q new t v f b V L1 L2 F P|h cmds keep t chk vs old r' V|o' r' ins' calm Hb Hnt Hx]; subst.
    + exfalso. inversion A; congruence.
    + assert (G : take_ins_p dp t cmds vs [] = take_ins t cmds vs []).
      { inversion A; subst; match goal with Hh : nth_error σ h = Some (ASeq ?t0 _ _ _) |- _ => rewrite V in Hh; injection Hh; intros; subst end;
          match goal with Hd : existsb dp (?d0 ++ _) = false |- _ => apply (take_ins_calm dp t0 cmds vs0 [] d0); [|rewrite existsb_app in Hd; apply orb_false_iff in Hd; apply Hd] end;
          match goal with Ht : take_eval _ _ _ _ = _ |- _ => rewrite Ht; reflexivity end. }
      rewrite G. destruct (step_balance w sl σ n _ r σ' d _ _ HI Hal A (G_take σ h cmds keep t chk vs old r V)) as (leaked & HP & _). eauto.
    + destruct (step_balance w sl σ n o r σ' d ins calm HI Hal A Hb) as (leaked & HP & _). eauto.
  - inversion He as [| |o' r' ins' calm Hb Hnt Hx]; subst. inversion Hb; subst.
    destruct (Hpre v d G) as (rest & Er). exists rest.
    pose proof (held_replace σ h v ADead V) as HR. cbn [owned_drops] in HR. rewrite Er in HR.
    unfold kill_vals. cbn [fold_left]. rewrite app_nil_r in *. symmetry. exact HR.
  - inversion He as [| |o' r' ins' calm Hb Hnt Hx]; subst. inversion Hb; subst.
    destruct (Hpre _ d G) as (rest & Er). exists rest.
    pose proof (held_replace σ h _ (ASeq t chk [] (old ++ starts t vs 0 ++ [total t vs])) V) as HR. rewrite Er in HR. cbn [owned_drops map concat] in HR.
    rewrite app_nil_r in *. symmetry. exact HR.
  - inversion He as [pl' q' new' t' v' f' b' V' L1' L2' F' P'| |o' r' ins' calm Hb Hnt Hx]; subst; [|exfalso; eapply Hx; eauto].
    exists []. rewrite app_nil_r. pose proof (held_put w sl σ n pl t v (put v q new) HI V) as H1.
    destruct (resolve_ok w sl σ n pl t v HI V) as (a & s0 & v0 & _ & _ & Ho & _).
    pose proof (vdrops_put q t v f b new (proj1 Ho) L1 L2) as H2. rewrite F in H2.
    clear - H1 H2. perm.
  - inversion He as [| |o' r' ins' calm Hb Hnt Hx]; subst. inversion Hb as [| | | |? ? hs' ha' fs' vs' ? V'| | |]; subst; [|contradiction].
    rewrite V in V'. injection V' as <- <- <- <-. exists []. rewrite app_nil_r.
    inversion Hal as [| | | | | |? ? hs' ha' fs' vs' V' Hn| | | | | | | | | | | | | | |]; subst. rewrite V in V'. injection V' as <- <- <- <-.
    destruct (resolve_ok w sl σ n pl _ _ HI V) as (a & s0 & v0 & _ & _ & Ho & _). pose proof (proj1 Ho) as Hv. cbn [vok] in Hv.
    pose proof (vctrls_ok fs vs _ Hv) as Hvc.
    pose proof (held_put w sl σ n pl _ _ (VRec (with_ctrls fs vs (mixed (Datatypes.S k) news (vctrls fs vs)))) HI V) as H1. cbn [vdrops] in H1.
    pose proof (vdrops_ctrls fs vs _ (mixed (Datatypes.S k) news (vctrls fs vs)) Hv (ctrls_ok_mixed _ _ _ _ Hn Hvc)) as H2.
    pose proof (mixed_vals (Datatypes.S k) (ctrl_types fs) (vctrls fs vs) news (eq_sym (Forall2_len _ _ _ Hvc)) (eq_sym (Forall2_len _ _ _ Hn))) as H3.
    rewrite !ctrl_drops_vals in H3. fold (ctrl_vals fs news). clear - H1 H2 H3. perm.
  - inversion He as [| |o' r' ins' calm Hb Hnt Hx]; subst. inversion Hb as [| | | |? ? hs' ha' fs' vs' ? V'| | |]; subst; [|contradiction].
    rewrite V in V'. injection V' as <- <- <- <-. exists []. rewrite app_nil_r, ctrl_drops_vals. reflexivity.
  - inversion He as [|h' cmds' keep' t' chk' vs' old' r' V'|o' r' ins' calm Hb Hnt Hx]; subst; [|contradiction].
    rewrite V in V'. injection V' as <- <- <- <-.
    pose proof (take_balance_p dp t cmds vs [] (seq_vok w sl σ n h t chk vs old HI V) ltac:(constructor)) as HB.
    assert (G : exists lost, Permutation (rest_drops t vs ++ take_ins_p dp t cmds vs []) (d ++ lost)).
    { unfold take_all in X. destruct (take_eval_p dp t cmds vs []) as [[outs rest hd d0|rest hd d0|]|]; try discriminate; destruct HB as (l1 & HB).
      - pose proof (drop_end_sub dp t keep hd rest) as HE. destruct (drop_end dp t keep hd rest) as [[] d2]; try discriminate. injection X as <-.
        destruct HE as (l2 & HE). exists (l1 ++ l2). cbn in HB. clear - HB HE. perm.
      - pose proof (drop_end_sub dp t false hd rest) as HE. destruct (drop_end dp t false hd rest) as [[] d2]; try discriminate. injection X as <-.
        destruct HE as (l2 & HE). exists (l1 ++ l2). cbn in HB. clear - HB HE. perm. }
    destruct G as (lost & G). exists lost.
    pose proof (held_replace σ h _ (ASeq t chk [] (old ++ starts t vs 0 ++ [total t vs])) V) as HR. cbn [owned_drops map concat] in HR.
    fold (rest_drops t vs) in HR. clear - HR G. perm.
Qed.
(** At any point of any program whose destructors may panic: a value that has been destroyed, counted
    together with the places where the program still holds it, has entered at least as often. *)
Theorem C51_no_double_drop : forall dp w sl σ ins x,
  account_p dp w sl σ ins ->
  (count_occ leaf_dec (drops_of (w_log w)) x + count_occ leaf_dec (held σ) x <= count_occ leaf_dec ins x)%nat.
Proof.
  intros dp w sl σ ins x Ha.
  assert (HP : exists lost, Permutation ins (held σ ++ drops_of (w_log w) ++ lost)).
  { assert (G : forall w sl σ ins o r w' σ' evs ins', account_p dp w sl σ ins -> allowed_p dp σ o ->
       w_log w' = w_log w ++ evs -> astep_p dp σ o r σ' (drops_of evs) -> enters dp σ o r ins' ->
       (exists lost, Permutation ins (held σ ++ drops_of (w_log w) ++ lost)) ->
       exists lost, Permutation (ins ++ ins') (held σ' ++ drops_of (w_log w') ++ lost)).
    { clear. intros w sl σ ins o r w' σ' evs ins' Ha Hal L Hs Hb (lost & HP).
      destruct (account_p_reach _ _ _ _ _ Ha) as (n & HR). pose proof (reach_p_inv _ _ _ _ _ HR) as HI.
      destruct (step_balance_p dp w sl σ n o r σ' _ ins' HI (proj1 Hal) Hs Hb) as (l & E).
      exists (lost ++ l). rewrite L, drops_app. clear - HP E. perm. }
    induction Ha as [w Hb Hl|w sl σ ins o r w' sl' σ' evs ins' H IH Hal E L Hs Hb|w sl σ ins o w' sl' σ' evs ins' H IH Hal E L Hs Hb].
    - exists []. rewrite Hl. constructor.
    - eapply G; eauto.
    - eapply G; eauto. }
  destruct HP as (lost & HP). rewrite (Permutation_count_occ leaf_dec) in HP. rewrite (HP x), !count_occ_app. lia.
Qed.
(** Every program can be accounted for in this way. *)
Theorem C51_accounted : forall dp w sl σ ins o,
  account_p dp w sl σ ins -> allowed_p dp σ o ->
  match exec_p dp o (w, sl) with
  | DOk r (w', sl') => exists σ' ins', enters dp σ o (Done r) ins' /\ account_p dp w' sl' σ' (ins ++ ins')
  | DPanic (w', sl') => exists σ' ins', enters dp σ o Panicked ins' /\ account_p dp w' sl' σ' (ins ++ ins')
  | DAbort => aborts dp σ o
  | DUB u => u = UNull /\ exists t p, o = ONewBox t p
  end.
Proof.
  intros dp w sl σ ins o Ha Hal. destruct (account_p_reach _ _ _ _ _ Ha) as (n & HR). pose proof (reach_p_inv _ _ _ _ _ HR) as HI.
  assert (Ht : forall r σ' d, astep_p dp σ o r σ' d -> exists ins', enters dp σ o r ins').
  { intros r σ' d A. destruct (brings_total w sl σ n o r HI (proj1 Hal)) as (ins' & calm' & Hb).
    destruct A as [o r σ' d A E|h v d V N G|h t chk vs old d V G|pl q new t v f b V L1 L2 F P
        |pl news hs ha fs vs k V Z S F X|pl news hs ha fs vs V Z S X|h cmds keep t chk vs old d V X];
      try (exists ins'; apply E_other with calm'; [exact Hb|exact I|]; intros; discriminate).
    - destruct Hal as [Hal _].
      assert (Hdec : (exists h cmds keep, o = OTake h cmds keep) \/ match o with OTake _ _ _ => False | _ => True end) by (destruct o; eauto).
      destruct Hdec as [(h & cmds & keep & ->)|Hnt].
      + inversion Hal; subst. eexists. eapply E_take; eauto.
      + exists ins'. apply E_other with calm'; [exact Hb|exact Hnt|]. intros pl q new t v b -> -> V L. inversion A; congruence.
    - exists [new]. eapply E_assign; eauto.
    - eexists. eapply E_take; eauto. }
  pose proof (exec_p_ok dp w sl σ n o HI Hal) as H.
  destruct (exec_p dp o (w, sl)) as [r [w' sl']|[w' sl']| |u] eqn:E; cbn [step_res_p] in H; unfold step_ok_p in H.
  - destruct H as (σ' & evs & A & L & _). destruct (Ht _ _ _ A) as (ins' & Hi). exists σ', ins'. split; [exact Hi|]. eapply KP_done; eauto.
  - destruct H as (σ' & evs & A & L & _). destruct (Ht _ _ _ A) as (ins' & Hi). exists σ', ins'. split; [exact Hi|]. eapply KP_panicked; eauto.
  - exact H.
  - destruct H as [-> (t & p & i & -> & _)]. eauto.
Qed.

(** ** a concrete program: the one of PropsProgram.v, where the destructor of h2 panics. *)
Definition bad : list cell -> bool := fun v => if leaf_dec v h2 then true else false.
Definition cfg_p (r : dres config out) : config := match r with DOk _ c | DPanic c => c | _ => (w_start, []) end.
Definition run_p (o : op) (c : config) : config := cfg_p (exec_p bad o c).
Lemma reach_p_step c σ n o r σ' d : reach_p bad (fst c) (snd c) σ n -> allowed_p bad σ o ->
  match exec_p bad o c with DOk x _ => Some x | _ => None end = Some r ->
  astep_p bad σ o (Done r) σ' d -> reach_p bad (fst (run_p o c)) (snd (run_p o c)) σ' (given_up o n).
Proof.
  intros HR Hal E Hs. destruct c as [w sl]. unfold run_p. destruct (exec_p bad o (w, sl)) as [x [w' sl']|[w' sl']| |] eqn:Ex; try discriminate.
  injection E as ->. cbn [cfg_p fst snd]. eapply RP_done; eauto.
Qed.
Lemma reach_p_panic c σ n o σ' d : reach_p bad (fst c) (snd c) σ n -> allowed_p bad σ o ->
  match exec_p bad o c with DPanic _ => true | _ => false end = true ->
  astep_p bad σ o Panicked σ' d -> reach_p bad (fst (run_p o c)) (snd (run_p o c)) σ' (leaks o n).
Proof.
  intros HR Hal E Hs. destruct c as [w sl]. unfold run_p. destruct (exec_p bad o (w, sl)) as [x [w' sl']|[w' sl']| |] eqn:Ex; try discriminate.
  cbn [cfg_p fst snd]. eapply RP_panicked; eauto.
Qed.
Definition d1 := run_p op1 (w_start, []).
Definition d2 := run_p op2 d1.
Definition d3 := run_p op3 d2.
Definition d6 := run_p op6 d3.
Definition d7 := run_p (ODrain 1) d6.
Lemma reach_d3 : reach_p bad (fst d3) (snd d3) σ3 0.
Proof.
  assert (R1 : reach_p bad (fst d1) (snd d1) σ1 0).
  { apply (reach_p_step (w_start, []) [] 0 op1 OutUnit σ1 []); [now constructor| |vm_compute; reflexivity|].
    - split; [|exact I]. apply L_new_box with i_ex; [apply t_ex_wf|apply p_ex_den| |vm_compute; reflexivity]. apply no_moves; [reflexivity|intros h []].
    - apply P_calm; [|reflexivity]. apply (A_new_box [] t_ex p_ex i_ex v_ex); [apply p_ex_den|vm_compute; reflexivity|vm_compute; reflexivity]. }
  assert (R2 : reach_p bad (fst d2) (snd d2) σ2 0).
  { apply (reach_p_step d1 σ1 0 op2 OutUnit σ2 []); [exact R1| |vm_compute; reflexivity|apply P_calm; [apply (A_new_seq σ1 t_tup true)|reflexivity]].
    split; [|exact I]. apply L_new_seq; [apply t_tup_wf|apply t_tup_nonzst]. }
  assert (D3 : den σ2 t_tup p3 (clone_init t_tup v_tup)).
  { apply D_clone; [reflexivity|]. cbn. conc. }
  apply (reach_p_step d2 σ2 0 op3 OutUnit σ3 []); [exact R2| |vm_compute; reflexivity|].
  - split; [|exact I]. eapply L_push; [reflexivity|exact D3|]. apply no_moves; [reflexivity|]. intros h [<-|[]] [H|[]]. discriminate.
  - apply P_calm; [|reflexivity]. apply (A_push σ2 1 p3 t_tup true [] [] (clone_init t_tup v_tup) v_tup); [reflexivity|exact D3|vm_compute; reflexivity|vm_compute; reflexivity].
Qed.
Example C51_meets : reach_p bad (fst d7) (snd d7) [ADead; ASeq t_tup true [] ([] ++ starts t_tup [v_tup] 0 ++ [total t_tup [v_tup]])] 1.
Proof.
  pose proof reach_d3 as R3.
  assert (R6 : reach_p bad (fst d6) (snd d6) [ADead; ASeq t_tup true [v_tup] []] 1).
  { apply (reach_p_panic d3 σ3 0 op6 [ADead; ASeq t_tup true [v_tup] []] [h1; h2; h3]); [exact R3| |vm_compute; reflexivity|].
    - split; [|exact I]. eapply L_drop; [reflexivity|discriminate].
    - apply (P_drop bad σ3 0 (ABox t_ex v_ex)); [reflexivity|discriminate|vm_compute; reflexivity]. }
  apply (reach_p_panic d6 [ADead; ASeq t_tup true [v_tup] []] 1 (ODrain 1) _ [h2; h3]); [exact R6| |vm_compute; reflexivity|].
  - split; [|exact I]. eapply L_drain. reflexivity.
  - apply (P_drain bad [ADead; ASeq t_tup true [v_tup] []] 1 t_tup true [v_tup] []); [reflexivity|vm_compute; reflexivity].
Qed.
(** The box panicked after destroying h1, h2 (which panics) and h3; its block leaked. Then the same
    happened while draining the sequence, which still has its storage and can be dropped. *)
Example C51_meets_drops : drops_of (w_log (fst d7)) = [h1; h2; h3; h2; h3] /\
  length (filter b_heap (w_blocks (fst d7))) = 2%nat /\
  length (filter b_heap (w_blocks (fst (run_p (ODrop 1) d7)))) = 1%nat.
Proof. vm_compute. auto. Qed.
(** Two panicking destructors in one array abort. *)
Example C51_meets_abort : exec_p (fun _ => true) (ODrop 1) d3 = DAbort.
Proof. vm_compute. reflexivity. Qed.
(** Taking the only element of the sequence and dropping it: the destructor of h2 panics, the sequence is
    empty and still usable. With a second such element left in the iterator, whose destructor then runs
    while unwinding, the process is aborted. *)
Definition op_take := OTake 1 [TNext; TDrop 0] false.
Definition d4 := run_p op_take d3.
Example C51_meets_take :
  reach_p bad (fst d4) (snd d4) [ABox t_ex v_ex; ASeq t_tup true [] ([] ++ starts t_tup [v_tup] 0 ++ [total t_tup [v_tup]])] 0 /\
  drops_of (w_log (fst d4)) = [h2; h3] /\
  exec_p bad (OTake 1 [TNext; TDrop 0] false) (run_p op3 d3) = DAbort /\
  aborts bad [ABox t_ex v_ex; ASeq t_tup true [v_tup; v_tup] []] (OTake 1 [TNext; TDrop 0] false).
Proof.
  split; [|split; [vm_compute; reflexivity|split; [vm_compute; reflexivity|]]].
  - apply (reach_p_panic d3 σ3 0 op_take _ [h2; h3]); [exact reach_d3| |vm_compute; reflexivity|].
    + split; [|exact I]. eapply L_take; [reflexivity|vm_compute; discriminate].
    + eapply (P_take bad σ3 1); [reflexivity|vm_compute; reflexivity].
  - eapply B_taken; [reflexivity|vm_compute; reflexivity].
Qed.
(** A struct with one layout controller with a destructor that panics when it is replaced: the new
    controller is in place, and the object can be used. *)
Definition t_one : vty := TRec KStruct 8 8 fs_one.
Definition p_one : pinit := PFields [PFixed h2; PArrF (ACopyFrom (repeat (by_ [7]) (N.to_nat (lf_first [h2]))))].
Definition n_one : list cell := firstn 1 h2 ++ skipn 1 h1.
Definition k1 := run_p (ONewBox t_one p_one) (w_start, []).
Definition k2 := run_p (OControllers (PlObj 0 PHere) [n_one]) k1.
Definition v_one (c : list cell) : vval := VRec [VFix c; VArr (repeat (by_ [7]) (N.to_nat (lf_first [h2])))].
Example C51_meets_controllers :
  reach_p bad (fst k2) (snd k2) [ABox t_one (v_one n_one)] 0 /\ drops_of (w_log (fst k2)) = [h2].
Proof.
  split; [|vm_compute; reflexivity].
  assert (D1 : den [] t_one p_one (IRec [IFixed h2; IArrF (ACopyFrom (repeat (by_ [7]) (N.to_nat (lf_first [h2]))))])).
  { unfold t_one, p_one, fs_one. constructor. constructor; [reflexivity|]. constructor; [|exact I|constructor]. vm_compute. conc. }
  assert (R1 : reach_p bad (fst k1) (snd k1) [ABox t_one (v_one h2)] 0).
  { apply (reach_p_step (w_start, []) [] 0 (ONewBox t_one p_one) OutUnit [ABox t_one (v_one h2)] []); [now constructor| |vm_compute; reflexivity|].
    - split; [|exact I]. eapply L_new_box; [exact (proj1 C37_partial_meets)|exact D1| |vm_compute; reflexivity]. apply no_moves; [reflexivity|intros h []].
    - apply P_calm; [|reflexivity]. eapply (A_new_box [] t_one p_one); [exact D1|vm_compute; reflexivity|vm_compute; reflexivity]. }
  apply (reach_p_panic k1 [ABox t_one (v_one h2)] 0 (OControllers (PlObj 0 PHere) [n_one]) [ABox t_one (v_one n_one)] [h2]); [exact R1| |vm_compute; reflexivity|].
  - split.
    + eapply L_controllers; [reflexivity|]. repeat constructor.
    + intros hs ha fs vs k E Hs Hf. cbn in E. injection E as _ _ <- <-.
      destruct k as [|k]; [exact Hs|]. destruct Hf as [Hf _]. cbn in Hf. destruct k; discriminate.
  - apply (P_controllers bad [ABox t_one (v_one h2)] (PlObj 0 PHere) [n_one] 8 8 fs_one [VFix h2; VArr (repeat (by_ [7]) (N.to_nat (lf_first [h2])))] 0); [reflexivity| | | |reflexivity].
    + vm_compute. repeat split; auto.
    + vm_compute. repeat split; auto.
    + split; [reflexivity|]. intros j Hj. lia.
Qed.
