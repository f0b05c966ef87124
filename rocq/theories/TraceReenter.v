(** TraceReenter.v - every function of the crate calls the allocator correctly also when user code runs
    in between and itself uses the crate (C60). *)
From Verif Require Export Trace ReenterModel.

(** User code that keeps [tracked]. *)
Definition tame (z : world) (a : action) : Prop :=
  forall w sl, tracked z w -> match a (w, sl) with Ok _ c | Panic c => tracked z (fst c) | UB _ => True end.
Definition tracked_u (z : world) (st : ustate) : Prop :=
  tracked z (fst (fst st)) /\ Forall (Forall (tame z)) (snd st).
Definition tracked_u2 {X} (z : world) (p : ustate * X) : Prop := tracked_u z (fst p).

Lemma keeps_up {A} z (m : M world A) : keeps (tracked z) m -> keeps (tracked_u z) (up m).
Proof. intros Hm [[w sl] acts] [H Ha]. unfold up. specialize (Hm w H). destruct (m w); [split; assumption|split; assumption|exact I]. Qed.
Lemma run_actions_tame z l : Forall (tame z) l -> forall w sl, tracked z w ->
  match run_actions l (w, sl) with Ok _ c | Panic c => tracked z (fst c) | UB _ => True end.
Proof.
  induction 1 as [|a l Ha _ IH]; intros w sl H; cbn [run_actions]; [exact H|]. specialize (Ha w sl H).
  destruct (a (w, sl)) as [x [w' sl']|[w' sl']|u]; [apply IH, Ha|apply IH, Ha|exact I].
Qed.
Lemma keeps_user z : keeps (tracked_u z) user.
Proof.
  intros [[w sl] acts] [H Ha]. unfold user. cbn [fst snd] in *. destruct acts as [|l r]; [split; [exact H|constructor]|]. inversion Ha; subst.
  pose proof (run_actions_tame z l ltac:(assumption) w sl H) as G. destruct (run_actions l (w, sl)) as [x [w' sl']|[w' sl']|u]; [split; assumption|split; assumption|exact I].
Qed.
Lemma keeps_call_drop z v : keeps (tracked_u z) (call_user (EDrop v)).
Proof. apply keeps_bind; [apply keeps_up, keeps_emit_drop|intros _; apply keeps_user]. Qed.
Lemma keeps_call_clone z v : keeps (tracked_u z) (call_user (EClone v)).
Proof. apply keeps_bind; [apply keeps_up, keeps_emit_clone|intros _; apply keeps_user]. Qed.
Lemma keeps_call_call z i : keeps (tracked_u z) (call_user (ECall i)).
Proof. apply keeps_bind; [apply keeps_up, keeps_emit_call|intros _; apply keeps_user]. Qed.
Lemma keeps_call_next z : keeps (tracked_u z) (call_user ENext).
Proof. apply keeps_bind; [apply keeps_up, keeps_emit_next|intros _; apply keeps_user]. Qed.
#[export] Hint Resolve keeps_call_drop keeps_call_clone keeps_call_call keeps_call_next : keepsdb.
Lemma keeps_lft_u {X A} z (m : M ustate A) : keeps (tracked_u z) m -> keeps (@tracked_u2 X z) (lft_u m).
Proof. intros Hm [st s] H. unfold lft_u. specialize (Hm st H). destruct (m st); auto. Qed.
Lemma keeps_get_u z : keeps (@tracked_u2 sq z) get_u.
Proof. intros [st s] H. exact H. Qed.
Lemma keeps_set_u z s' : keeps (@tracked_u2 sq z) (set_u s').
Proof. intros [st s] H. exact H. Qed.
#[export] Hint Resolve keeps_get_u keeps_set_u : keepsdb.
Ltac keeps ::=
  repeat first
    [ assumption
    | solve [eauto 2 with keepsdb]
    | apply keeps_bind; [|intros ?]
    | apply keeps_unwind
    | apply keeps_each; intros ?
    | apply keeps_mapM; intros ?
    | apply keeps_up
    | apply keeps_lft_u
    | match goal with
      | |- keeps _ (let '(_, _) := ?x in _) => destruct x as [? ?]
      | |- keeps _ (match ?x with _ => _ end) => destruct x as [] eqn:?
      | |- keeps _ (let _ := _ in _) => cbv zeta
      end ].

Lemma ukeeps_drop_leaf z f a : keeps (tracked_u z) (drop_leaf_u f a).
Proof. unfold drop_leaf_u. keeps. Qed.
Lemma ukeeps_drop_value z f v : keeps (tracked_u z) (drop_value_u f v).
Proof. unfold drop_value_u. keeps. Qed.
#[export] Hint Resolve ukeeps_drop_leaf ukeeps_drop_value : keepsdb.
Lemma ukeeps_drop_array z f a off n : keeps (tracked_u z) (drop_array_u f a off n).
Proof. unfold drop_array_u. keeps. Qed.
#[export] Hint Resolve ukeeps_drop_array : keepsdb.
Lemma ukeeps_vdrop2 z :
  (forall t a l, keeps (tracked_u z) (vdrop_u t a l)) /\ (forall fs a es, keeps (tracked_u z) (vdrop_flds_u fs a es)).
Proof. apply vty_flds_ind; intros; cbn [vdrop_u vdrop_flds_u]; keeps. Qed.
Lemma ukeeps_vdrop z t a l : keeps (tracked_u z) (vdrop_u t a l).
Proof. apply ukeeps_vdrop2. Qed.
#[export] Hint Resolve ukeeps_vdrop : keepsdb.
Lemma ukeeps_vbox_drop z t a : keeps (tracked_u z) (vbox_drop_u t a).
Proof. unfold vbox_drop_u. keeps. Qed.
Lemma ukeeps_owned_drop z t a : keeps (tracked_u z) (owned_drop_u t a).
Proof. unfold owned_drop_u. keeps. Qed.
Lemma ukeeps_drop_ainit z f ai : keeps (tracked_u z) (drop_ainit_u f ai).
Proof. unfold drop_ainit_u. keeps. Qed.
#[export] Hint Resolve ukeeps_vbox_drop ukeeps_owned_drop ukeeps_drop_ainit : keepsdb.
Lemma ukeeps_drop_init2 z :
  (forall t i, keeps (tracked_u z) (drop_init_u t i)) /\ (forall fs is_, keeps (tracked_u z) (drop_flds_u fs is_)).
Proof. apply vty_flds_ind; intros; cbn [drop_init_u drop_flds_u]; keeps. Qed.
Lemma ukeeps_drop_init z t i : keeps (tracked_u z) (drop_init_u t i).
Proof. apply ukeeps_drop_init2. Qed.
Lemma ukeeps_drop_flds z fs is_ : keeps (tracked_u z) (drop_flds_u fs is_).
Proof. apply ukeeps_drop_init2. Qed.
#[export] Hint Resolve ukeeps_drop_init ukeeps_drop_flds : keepsdb.
Lemma ukeeps_drop_flds_rev z fs : forall is_, keeps (tracked_u z) (drop_flds_rev_u fs is_).
Proof. induction fs; intros; cbn [drop_flds_rev_u]; keeps. Qed.
#[export] Hint Resolve ukeeps_drop_flds_rev : keepsdb.
Lemma ukeeps_ainit_run z f ai p n : keeps (tracked_u z) (ainit_run_u f ai p n).
Proof. unfold ainit_run_u, fill_loop_u. destruct ai; keeps. Qed.
#[export] Hint Resolve ukeeps_ainit_run : keepsdb.
Lemma ukeeps_init_array z f ai a off n : keeps (tracked_u z) (init_array_u f ai a off n).
Proof. unfold init_array_u. keeps. Qed.
Lemma ukeeps_unwind_rec z kd temps r is_ : keeps (tracked_u z) (unwind_rec_u kd temps r is_).
Proof. unfold unwind_rec_u, drop_temps_u. keeps. Qed.
#[export] Hint Resolve ukeeps_init_array ukeeps_unwind_rec : keepsdb.
Lemma ukeeps_initialize2 z :
  (forall t i dst l, keeps (tracked_u z) (initialize_u t i dst l)) /\
  (forall fs kd is_ es dst temps, keeps (tracked_u z) (init_fields_u kd fs is_ es dst temps)).
Proof. apply vty_flds_ind; intros; cbn [initialize_u init_fields_u]; keeps. Qed.
Lemma ukeeps_initialize z t i dst l : keeps (tracked_u z) (initialize_u t i dst l).
Proof. apply ukeeps_initialize2. Qed.
#[export] Hint Resolve ukeeps_initialize : keepsdb.
Lemma ukeeps_vbox_new z t i : keeps (tracked_u z) (vbox_new_u t i).
Proof. unfold vbox_new_u. keeps. Qed.
Lemma ukeeps_owned_new_in z t i : keeps (tracked_u z) (owned_new_in_u t i).
Proof. unfold owned_new_in_u. keeps. Qed.
Lemma ukeeps_assign z t a p new : keeps (tracked_u z) (assign_u t a p new).
Proof. unfold assign_u. keeps. Qed.
Lemma ukeeps_set_ctrls z a dp cf : forall news, keeps (tracked_u z) (set_ctrls_u a dp cf news).
Proof. induction cf; intros; cbn [set_ctrls_u]; keeps. Qed.
#[export] Hint Resolve ukeeps_vbox_new ukeeps_owned_new_in ukeeps_assign ukeeps_set_ctrls : keepsdb.
Lemma ukeeps_try_set z fs a dp news : keeps (tracked_u z) (try_set_layout_controllers_u fs a dp news).
Proof. unfold try_set_layout_controllers_u. keeps. Qed.
Lemma ukeeps_push z t chk i : keeps (@tracked_u2 sq z) (seq_push_u t chk i).
Proof. unfold seq_push_u. keeps. Qed.
Lemma ukeeps_take z t chk : keeps (@tracked_u2 sq z) (take_elems_u t chk).
Proof. unfold take_elems_u. keeps. Qed.
Lemma ukeeps_drop_loop z t n : forall it, keeps (tracked_u z) (drop_elems_loop_u t n it).
Proof. induction n; intros; cbn [drop_elems_loop_u]; keeps. Qed.
#[export] Hint Resolve ukeeps_try_set ukeeps_push ukeeps_take ukeeps_drop_loop : keepsdb.
Lemma ukeeps_elems_drop z t it : keeps (tracked_u z) (owned_elems_drop_u t it).
Proof. unfold owned_elems_drop_u. keeps. Qed.
#[export] Hint Resolve ukeeps_elems_drop : keepsdb.
Lemma ukeeps_seq_drop z t chk : keeps (@tracked_u2 sq z) (seq_drop_u t chk).
Proof. unfold seq_drop_u. keeps. Qed.
#[export] Hint Resolve ukeeps_seq_drop : keepsdb.
Lemma ukeeps_take_cmd z t c : keeps (@tracked_u2 tstate z) (take_cmd_u t c).
Proof.
  assert (Hh : forall j, keeps (@tracked_u2 tstate z) (held_u j)).
  { intros j [st s] H. cbn [held_u]. destruct (nth_error (snd s) j) as [[a|]|]; [exact H|exact I|exact I]. }
  assert (Hl : forall j, keeps (@tracked_u2 tstate z) (let_go_u j)).
  { intros j [st [it l]] H. exact H. }
  destruct c; cbn [take_cmd_u]; keeps.
  - intros [st [it l]] H. pose proof (keeps_up z _ (keeps_next z t it) st H) as Hn. destruct (up (iter_next t it) st) as [[[a|] it'] st'|st'|u]; exact Hn.
  - intros [st [it l]] H. exact H.
Qed.
#[export] Hint Resolve ukeeps_take_cmd : keepsdb.
Lemma ukeeps_take_end z t keep s : keeps (tracked_u z) (take_end_u t keep s).
Proof. unfold take_end_u. keeps. Qed.
#[export] Hint Resolve ukeeps_take_end : keepsdb.
Lemma ukeeps_take_run z t it cmds keep : keeps (tracked_u z) (take_run_u t it cmds keep).
Proof.
  intros st H. unfold take_run_u.
  assert (Hm : keeps (@tracked_u2 tstate z) (mapM (take_cmd_u t) cmds)) by keeps.
  specialize (Hm (st, (it, [])) H).
  destruct (mapM (take_cmd_u t) cmds (st, (it, []))) as [outs [st' s]|[st' s]|u]; [| |exact I].
  - assert (Hs : keeps (tracked_u z) (take_end_u t keep s ;;; ret outs)) by keeps. exact (Hs st' Hm).
  - assert (Hs : keeps (tracked_u z) (take_end_u t false s ;;; (@panic ustate (list out)))) by keeps. exact (Hs st' Hm).
Qed.
#[export] Hint Resolve ukeeps_take_run : keepsdb.

(** ** Programs *)
Lemma done_u_keeps {A} z o n k kp (m : M ustate A) st : keeps (tracked_u z) m -> tracked_u z st ->
  match done_u o n k kp (m st) with Ok _ c' | Panic c' => tracked z (fst c') | UB _ => True end.
Proof. intros Hm H. unfold done_u. specialize (Hm st H). destruct (m st) as [a [[w' sl'] acts']|[[w' sl'] acts']|u]; [apply Hm|apply Hm|exact I]. Qed.
Lemma done_seq_u_keeps {A} z o n k kp (m : M (ustate * sq) A) st s : keeps (@tracked_u2 sq z) m -> tracked_u z st ->
  match done_seq_u o n k kp (m (st, s)) with Ok _ c' | Panic c' => tracked z (fst c') | UB _ => True end.
Proof.
  intros Hm H. unfold done_seq_u. specialize (Hm (st, s) H). destruct (m (st, s)) as [a [[[w' sl'] acts'] s']|[[[w' sl'] acts'] s']|u]; [apply Hm|apply Hm|exact I].
Qed.
Lemma exec_with_keeps z o acts : Forall (Forall (tame z)) acts -> tame z (exec_with o acts).
Proof.
  intros Ha w sl H. unfold exec_with. cbv zeta.
  assert (Hz : forall sl', tracked_u z (w, sl', acts)) by (intros; split; assumption).
  pose proof (exec_keeps z o w sl H) as He.
  destruct o; try exact He;
    repeat match goal with |- match (match ?x with _ => _ end) with _ => _ end => destruct x end;
    try exact I; first [apply done_u_keeps; [keeps|apply Hz]|apply done_seq_u_keeps; [keeps|apply Hz]].
Qed.
Lemma exec_u_tame z : forall u, tame z (exec_u u).
Proof.
  fix IH 1. intros [o script]. cbn [exec_u]. apply exec_with_keeps.
  induction script as [|l script IHs]; cbn [map]; constructor; [|exact IHs].
  induction l as [|u l IHl]; cbn [map]; constructor; [apply IH|exact IHl].
Qed.
