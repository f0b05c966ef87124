(** Reenter.v - the operations with user code follow the operations without (C61). *)
From Verif Require Export ReenterCalls.

(** ** simulation of an operation by the same operation with user code *)
Definition usim {Z T A} (E B : ub -> Prop) (Q QO QP : Z -> T -> Prop) (m : M Z A) (mu : M T A) : Prop :=
  forall s t, Q s t -> (exists u, mu t = UB u /\ E u) \/
    match m s with
    | Ok a s' => exists t', mu t = Ok a t' /\ QO s' t'
    | Panic s' => exists t', mu t = Panic t' /\ QP s' t'
    | UB u => B u \/ mu t = UB u
    end.
Definition usame {Z T A} E B (Q : Z -> T -> Prop) (m : M Z A) (mu : M T A) : Prop := usim E B Q Q Q m mu.

Lemma usim_ret {Z T A} E B Q QP (a : A) : @usim Z T A E B Q Q QP (ret a) (ret a).
Proof. intros s t H. right. cbn. eauto. Qed.
Lemma usim_panic {Z T A} E B Q QO : @usim Z T A E B Q QO Q panic panic.
Proof. intros s t H. right. cbn. eauto. Qed.
Lemma usim_undef {Z T A} E B Q QO QP u : @usim Z T A E B Q QO QP (undef u) (undef u).
Proof. intros s t H. right. right. reflexivity. Qed.
Lemma usim_padd {Z T} E B Q QP a b : @usim Z T N E B Q Q QP (padd a b) (padd a b).
Proof. unfold padd. destruct (_ <? _); [apply usim_ret|apply usim_undef]. Qed.
Lemma usim_pmul {Z T} E B Q QP a b : @usim Z T N E B Q Q QP (pmul a b) (pmul a b).
Proof. unfold pmul. destruct (_ <? _); [apply usim_ret|apply usim_undef]. Qed.
Lemma usim_bind {Z T A C} E B Q Q1 QO QP (m : M Z A) (mu : M T A) (k : A -> M Z C) (ku : A -> M T C) :
  usim E B Q Q1 QP m mu -> (forall a, usim E B Q1 QO QP (k a) (ku a)) -> usim E B Q QO QP (bind m k) (bind mu ku).
Proof.
  intros Hm Hk s t H. unfold bind. destruct (Hm s t H) as [(u & -> & He)|H1]; [left; eauto|]. destruct (m s) as [a s'|s'|u].
  - destruct H1 as (t' & -> & H'). exact (Hk a s' t' H').
  - destruct H1 as (t' & -> & H'). right. eauto.
  - right. destruct H1 as [H1|H1]; [auto|]. rewrite H1. auto.
Qed.
Lemma usim_unwind {Z T A} E B Q QO Q1 QP (m : M Z A) (mu : M T A) c cu :
  usim E B Q QO Q1 m mu -> usim E B Q1 QP QP c cu -> usim E B Q QO QP (on_unwind m c) (on_unwind mu cu).
Proof.
  intros Hm Hc s t H. unfold on_unwind. destruct (Hm s t H) as [(u & -> & He)|H1]; [left; eauto|]. destruct (m s) as [a s'|s'|u].
  - destruct H1 as (t' & -> & H'). right. eauto.
  - destruct H1 as (t' & -> & H'). destruct (Hc s' t' H') as [(u & -> & He)|H2]; [left; eauto|]. right. destruct (c s') as [x s2|s2|u].
    + destruct H2 as (t2 & -> & H2). eauto.
    + destruct H2 as (t2 & -> & H2). eauto.
    + destruct H2 as [H2|H2]; [auto|]. rewrite H2. auto.
  - right. destruct H1 as [H1|H1]; [auto|]. rewrite H1. auto.
Qed.
Lemma usim_weaken {Z T A} E B (Q QO QP Q' QO' QP' : Z -> T -> Prop) (m : M Z A) mu :
  usim E B Q QO QP m mu -> (forall s t, Q' s t -> Q s t) -> (forall s t, QO s t -> QO' s t) -> (forall s t, QP s t -> QP' s t) ->
  usim E B Q' QO' QP' m mu.
Proof.
  intros Hm H1 H2 H3 s t H. destruct (Hm s t (H1 _ _ H)) as [He|H4]; [left; exact He|]. right. destruct (m s) as [a s'|s'|u].
  - destruct H4 as (t' & -> & H4). eauto.
  - destruct H4 as (t' & -> & H4). eauto.
  - exact H4.
Qed.
Lemma usim_each {Z T A} E B (Q : Z -> T -> Prop) (body : A -> M Z unit) bodyu l :
  (forall a, usame E B Q (body a) (bodyu a)) -> usame E B Q (for_each body l) (for_each bodyu l).
Proof. intros H. induction l as [|x l IH]; cbn [for_each]; [apply usim_ret|]. eapply usim_bind; [apply H|]. intros _. exact IH. Qed.
Lemma usim_mapM {Z T A C} E B (Q : Z -> T -> Prop) (body : A -> M Z C) bodyu l :
  (forall a, usame E B Q (body a) (bodyu a)) -> usame E B Q (mapM body l) (mapM bodyu l).
Proof.
  intros H. induction l as [|x l IH]; cbn [mapM]; [apply usim_ret|]. eapply usim_bind; [apply H|]. intros y.
  eapply usim_bind; [exact IH|]. intros ys. apply usim_ret.
Qed.

(** ** what is needed of the relation *)
Record uctx (E B : ub -> Prop) (Q : world -> ustate -> Prop) : Prop := mkUctx {
  c_up : forall A (m : M world A), (forall R, prims R -> sim R m) -> usame E B Q m (up m);
  c_call : forall e, user_call e = true -> usame E B Q (emit e) (call_user e) }.
Create HintDb usims.
Lemma us_ret {Z T A} E B Q (a : A) : @usame Z T A E B Q (ret a) (ret a).
Proof. apply usim_ret. Qed.
Lemma us_panic {Z T A} E B Q : @usame Z T A E B Q panic panic.
Proof. apply usim_panic. Qed.
Lemma us_undef {Z T A} E B Q u : @usame Z T A E B Q (undef u) (undef u).
Proof. apply usim_undef. Qed.
Lemma us_padd {Z T} E B Q a b : @usame Z T N E B Q (padd a b) (padd a b).
Proof. apply usim_padd. Qed.
Lemma us_pmul {Z T} E B Q a b : @usame Z T N E B Q (pmul a b) (pmul a b).
Proof. apply usim_pmul. Qed.
Lemma us_bind {Z T A C} E B Q (m : M Z A) (mu : M T A) (k : A -> M Z C) (ku : A -> M T C) :
  usame E B Q m mu -> (forall a, usame E B Q (k a) (ku a)) -> usame E B Q (bind m k) (bind mu ku).
Proof. apply usim_bind. Qed.
Lemma us_unwind {Z T A} E B Q (m : M Z A) (mu : M T A) c cu : usame E B Q m mu -> usame E B Q c cu -> usame E B Q (on_unwind m c) (on_unwind mu cu).
Proof. apply usim_unwind. Qed.
#[export] Hint Resolve us_ret us_panic us_undef us_padd us_pmul : usims.
Ltac usim_up := match goal with |- usame _ _ _ ?m (up ?m) => solve [apply c_up; [assumption|]; intros; lsim] end.
Ltac us :=
  repeat first
    [ assumption
    | solve [eauto 3 with usims]
    | usim_up
    | solve [apply c_call; [assumption|reflexivity]]
    | apply us_bind; [|intros ?]
    | apply us_unwind
    | apply usim_each; intros ?
    | apply usim_mapM; intros ?
    | match goal with
      | |- usame _ _ _ (let '(_, _) := ?x in _) _ => destruct x as [? ?]
      | |- usame _ _ _ (match ?x with _ => _ end) _ => destruct x as [] eqn:?
      | |- usame _ _ _ (let _ := _ in _) _ => cbv zeta
      end ].
Lemma us_drop_leaf E B Q (C : uctx E B Q) f a : usame E B Q (drop_leaf f a) (drop_leaf_u f a).
Proof. unfold drop_leaf, drop_leaf_u. us. Qed.
Lemma us_drop_value E B Q (C : uctx E B Q) f v : usame E B Q (drop_value f v) (drop_value_u f v).
Proof. unfold drop_value, drop_value_u. us. Qed.
#[export] Hint Resolve us_drop_leaf us_drop_value : usims.
Lemma us_drop_array E B Q (C : uctx E B Q) f a off n : usame E B Q (drop_array f a off n) (drop_array_u f a off n).
Proof. unfold drop_array, drop_array_u. us. Qed.
#[export] Hint Resolve us_drop_array : usims.
Lemma us_vdrop2 E B Q (C : uctx E B Q) :
  (forall t a l, usame E B Q (vdrop t a l) (vdrop_u t a l)) /\ (forall fs a es, usame E B Q (vdrop_flds fs a es) (vdrop_flds_u fs a es)).
Proof. apply vty_flds_ind; intros; cbn [vdrop vdrop_flds vdrop_u vdrop_flds_u]; us. Qed.
Lemma us_vdrop E B Q (C : uctx E B Q) t a l : usame E B Q (vdrop t a l) (vdrop_u t a l).
Proof. now apply us_vdrop2. Qed.
#[export] Hint Resolve us_vdrop : usims.
Lemma us_vbox_drop E B Q (C : uctx E B Q) t a : usame E B Q (vbox_drop t a) (vbox_drop_u t a).
Proof. unfold vbox_drop, vbox_drop_u. us. Qed.
Lemma us_owned_drop E B Q (C : uctx E B Q) t a : usame E B Q (owned_drop t a) (owned_drop_u t a).
Proof. unfold owned_drop, owned_drop_u. us. Qed.
Lemma us_drop_ainit E B Q (C : uctx E B Q) f ai : usame E B Q (drop_ainit f ai) (drop_ainit_u f ai).
Proof. unfold drop_ainit, drop_ainit_u. us. Qed.
#[export] Hint Resolve us_vbox_drop us_owned_drop us_drop_ainit : usims.
Lemma us_drop_init2 E B Q (C : uctx E B Q) :
  (forall t i, usame E B Q (drop_init t i) (drop_init_u t i)) /\ (forall fs is_, usame E B Q (drop_flds fs is_) (drop_flds_u fs is_)).
Proof. apply vty_flds_ind; intros; cbn [drop_init drop_flds drop_init_u drop_flds_u]; us. Qed.
Lemma us_drop_init E B Q (C : uctx E B Q) t i : usame E B Q (drop_init t i) (drop_init_u t i).
Proof. now apply us_drop_init2. Qed.
Lemma us_drop_flds E B Q (C : uctx E B Q) fs is_ : usame E B Q (drop_flds fs is_) (drop_flds_u fs is_).
Proof. now apply us_drop_init2. Qed.
#[export] Hint Resolve us_drop_init us_drop_flds : usims.
Lemma us_drop_flds_rev E B Q (C : uctx E B Q) fs : forall is_, usame E B Q (drop_flds_rev fs is_) (drop_flds_rev_u fs is_).
Proof. induction fs; intros; cbn [drop_flds_rev drop_flds_rev_u]; us. Qed.
#[export] Hint Resolve us_drop_flds_rev : usims.
Lemma us_fill_none E B Q (C : uctx E B Q) f p g i : usame E B Q (fill_loop f p (fun _ => []) g i) (fill_loop_u f p (fun _ => ret tt) g i).
Proof. unfold fill_loop, fill_loop_u. cbn [for_each]. us. Qed.
#[export] Hint Resolve us_fill_none : usims.
Lemma us_ainit_run E B Q (C : uctx E B Q) f ai p n : usame E B Q (ainit_run f ai p n) (ainit_run_u f ai p n).
Proof. unfold ainit_run, ainit_run_u, fill_loop, fill_loop_u. us. Qed.
#[export] Hint Resolve us_ainit_run : usims.
Lemma us_init_array E B Q (C : uctx E B Q) f ai a off n : usame E B Q (init_array f ai a off n) (init_array_u f ai a off n).
Proof. unfold init_array, init_array_u. us. Qed.
Lemma us_unwind_rec E B Q (C : uctx E B Q) kd temps r is_ : usame E B Q (unwind_rec kd temps r is_) (unwind_rec_u kd temps r is_).
Proof. unfold unwind_rec, unwind_rec_u, drop_temps, drop_temps_u. us. Qed.
#[export] Hint Resolve us_init_array us_unwind_rec : usims.
Lemma us_initialize2 E B Q (C : uctx E B Q) :
  (forall t i dst l, usame E B Q (initialize t i dst l) (initialize_u t i dst l)) /\
  (forall fs kd is_ es dst temps, usame E B Q (init_fields kd fs is_ es dst temps) (init_fields_u kd fs is_ es dst temps)).
Proof. apply vty_flds_ind; intros; cbn [initialize init_fields initialize_u init_fields_u]; us. Qed.
Lemma us_initialize E B Q (C : uctx E B Q) t i dst l : usame E B Q (initialize t i dst l) (initialize_u t i dst l).
Proof. now apply us_initialize2. Qed.
Lemma us_assign E B Q (C : uctx E B Q) t a p new : usame E B Q (assign t a p new) (assign_u t a p new).
Proof. unfold assign, assign_u. us. Qed.
Lemma us_set_ctrls E B Q (C : uctx E B Q) a dp cf : forall news, usame E B Q (set_ctrls a dp cf news) (set_ctrls_u a dp cf news).
Proof. induction cf; intros; cbn [set_ctrls set_ctrls_u]; us. Qed.
#[export] Hint Resolve us_initialize us_assign us_set_ctrls : usims.
Lemma us_try_set E B Q (C : uctx E B Q) fs a dp news : usame E B Q (try_set_layout_controllers fs a dp news) (try_set_layout_controllers_u fs a dp news).
Proof. unfold try_set_layout_controllers, try_set_layout_controllers_u. us. Qed.
Lemma us_drop_loop E B Q (C : uctx E B Q) t n : forall it, usame E B Q (drop_elems_loop t n it) (drop_elems_loop_u t n it).
Proof. induction n; intros; cbn [drop_elems_loop drop_elems_loop_u]; us. Qed.
#[export] Hint Resolve us_try_set us_drop_loop : usims.
Lemma us_elems_drop E B Q (C : uctx E B Q) t it : usame E B Q (owned_elems_drop t it) (owned_elems_drop_u t it).
Proof. unfold owned_elems_drop, owned_elems_drop_u. us. Qed.
#[export] Hint Resolve us_elems_drop : usims.

(** ** sequences: the state also holds the sequence *)
Definition Qx {Z T X} (Q : Z -> T -> Prop) (p : Z * X) (q : T * X) : Prop := Q (fst p) (fst q) /\ snd p = snd q.
Lemma usim_lft {A} E B Q QO QP (m : M world A) mu : usim E B Q QO QP m mu -> usim E B (@Qx _ _ sq Q) (Qx QO) (Qx QP) (lft m) (lft_u mu).
Proof.
  intros H [s x] [t y] [H1 H2]. cbn [fst snd] in *. subst y. unfold lft, lft_u. destruct (H s t H1) as [(u & -> & He)|H2]; [left; eauto|]. right.
  destruct (m s) as [a s'|s'|u]; [| |destruct H2 as [H2|H2]; [auto|rewrite H2; auto]]; destruct H2 as (t' & -> & H2); eexists; (split; [reflexivity|]); (split; [exact H2|reflexivity]).
Qed.
Lemma usim_lft_t {A} E B Q QO QP (m : M world A) mu : usim E B Q QO QP m mu -> usim E B (@Qx _ _ tstate Q) (Qx QO) (Qx QP) (lft_t m) (lft_u mu).
Proof.
  intros H [s x] [t y] [H1 H2]. cbn [fst snd] in *. subst y. unfold lft_t, lft_u. destruct (H s t H1) as [(u & -> & He)|H2]; [left; eauto|]. right.
  destruct (m s) as [a s'|s'|u]; [| |destruct H2 as [H2|H2]; [auto|rewrite H2; auto]]; destruct H2 as (t' & -> & H2); eexists; (split; [reflexivity|]); (split; [exact H2|reflexivity]).
Qed.
Lemma usim_get E B Q QP : usim E B (@Qx world ustate sq Q) (Qx Q) QP get_sq get_u.
Proof. intros [s x] [t y] [H1 H2]. cbn [fst snd] in *. subst y. right. eexists. split; [reflexivity|]. split; auto. Qed.
Lemma usim_set E B Q QP x : usim E B (@Qx world ustate sq Q) (Qx Q) QP (set_sq x) (set_u x).
Proof. intros [s x1] [t y] [H1 H2]. cbn [fst snd] in *. subst y. right. eexists. split; [reflexivity|]. split; auto. Qed.
Lemma us_get E B Q : usame E B (@Qx world ustate sq Q) get_sq get_u.
Proof. apply usim_get. Qed.
Lemma us_set E B Q x : usame E B (@Qx world ustate sq Q) (set_sq x) (set_u x).
Proof. apply usim_set. Qed.
Lemma us_lft {A} E B Q (m : M world A) mu : usame E B Q m mu -> usame E B (@Qx _ _ sq Q) (lft m) (lft_u mu).
Proof. apply usim_lft. Qed.
Lemma us_lft_t {A} E B Q (m : M world A) mu : usame E B Q m mu -> usame E B (@Qx _ _ tstate Q) (lft_t m) (lft_u mu).
Proof. apply usim_lft_t. Qed.
#[export] Hint Resolve us_get us_set : usims.
Ltac usx := repeat first [apply us_lft|apply us_lft_t|progress us].
Lemma us_take_elems E B Q (C : uctx E B Q) t chk : usame E B (Qx Q) (take_elems t chk) (take_elems_u t chk).
Proof. unfold take_elems, take_elems_u. usx. Qed.
#[export] Hint Resolve us_take_elems : usims.
Lemma us_seq_drop E B Q (C : uctx E B Q) t chk : usame E B (Qx Q) (seq_drop t chk) (seq_drop_u t chk).
Proof. unfold seq_drop, seq_drop_u. usx. Qed.
Lemma us_held E B Q j : usame E B (@Qx world ustate tstate Q) (held_at j) (held_u j).
Proof.
  intros [s x] [t y] [H1 H2]. cbn [fst snd] in *. subst y. right. unfold held_at, held_u.
  destruct (nth_error (snd x) j) as [[a|]|]; [|auto|auto]. eexists. split; [reflexivity|]. split; auto.
Qed.
Lemma us_let_go E B Q j : usame E B (@Qx world ustate tstate Q) (let_go j) (let_go_u j).
Proof. intros [s [it l]] [t y] [H1 H2]. cbn [fst snd] in *. subst y. right. eexists. split; [reflexivity|]. split; auto. Qed.
#[export] Hint Resolve us_seq_drop us_held us_let_go : usims.
Lemma us_take_cmd E B Q (C : uctx E B Q) t c : usame E B (Qx Q) (take_cmd t c) (take_cmd_u t c).
Proof.
  destruct c; cbn [take_cmd take_cmd_u]; try (usx; fail).
  - intros [s [it l]] [z y] [H1 H2]. cbn [fst snd] in *. subst y.
    assert (Hn : usame E B Q (iter_next t it) (up (iter_next t it))) by us. destruct (Hn s z H1) as [(u & -> & He)|H2]; [left; eauto|]. right.
    destruct (iter_next t it s) as [[[a|] it'] s'|s'|u]; [| | |destruct H2 as [H2|H2]; [auto|rewrite H2; auto]];
      destruct H2 as (t' & -> & H2); eexists; (split; [reflexivity|]); (split; [exact H2|reflexivity]).
  - intros [s [it l]] [z y] [H1 H2]. cbn [fst snd] in *. subst y. right. eexists. split; [reflexivity|]. split; auto.
Qed.
Lemma us_take_end E B Q (C : uctx E B Q) t keep s : usame E B Q (take_end t keep s) (take_end_u t keep s).
Proof. unfold take_end, take_end_u. us. Qed.
#[export] Hint Resolve us_take_cmd us_take_end : usims.
Lemma us_take_run E B Q (C : uctx E B Q) t it cmds keep : usame E B Q (take_run t it cmds keep) (take_run_u t it cmds keep).
Proof.
  intros w z H. unfold take_run, take_run_u.
  assert (Hm : usame E B (@Qx world ustate tstate Q) (mapM (take_cmd t) cmds) (mapM (take_cmd_u t) cmds)) by us.
  destruct (Hm (w, (it, [])) (z, (it, [])) (conj H eq_refl)) as [(u & -> & He)|H2]; [left; eauto|].
  destruct (mapM (take_cmd t) cmds (w, (it, []))) as [outs [w' s]|[w' s]|u]; [| |right; destruct H2 as [H2|H2]; [auto|rewrite H2; auto]].
  - destruct H2 as ([z' s'] & -> & H' & E'). cbn [fst snd] in *. subst s'.
    assert (Hs : usame E B Q (take_end t keep s ;;; ret outs) (take_end_u t keep s ;;; ret outs)) by us. exact (Hs w' z' H').
  - destruct H2 as ([z' s'] & -> & H' & E'). cbn [fst snd] in *. subst s'.
    assert (Hs : usame E B Q (take_end t false s ;;; (@panic world (list out))) (take_end_u t false s ;;; panic)) by us. exact (Hs w' z' H').
Qed.
#[export] Hint Resolve us_take_run : usims.

(** ** before and after the first call of user code *)
Record uctx2 (E B : ub -> Prop) (Q1 Q : world -> ustate -> Prop) : Prop := mkUctx2 {
  d_ctx : uctx E B Q;
  d_sub : forall s t, Q1 s t -> Q s t;
  d_up : forall A (m : M world A), (forall R, prims R -> aprims R -> sim R m) -> usame E B Q1 m (up m) }.
Lemma usim_late {Z T A} E B (Q1 Q : Z -> T -> Prop) (m : M Z A) mu : (forall s t, Q1 s t -> Q s t) -> usame E B Q m mu -> usim E B Q1 Q Q m mu.
Proof. intros H Hm. eapply usim_weaken; [exact Hm|exact H|auto|auto]. Qed.
Lemma usim_early {Z T A} E B (Q1 Q : Z -> T -> Prop) (m : M Z A) mu : (forall s t, Q1 s t -> Q s t) -> usame E B Q1 m mu -> usim E B Q1 Q1 Q m mu.
Proof. intros H Hm. eapply usim_weaken; [exact Hm|auto|auto|exact H]. Qed.
Lemma u2_vbox_new E B Q1 Q (D : uctx2 E B Q1 Q) t i : usim E B Q1 Q Q (vbox_new t i) (vbox_new_u t i).
Proof.
  destruct D as [C Hs Hup]. unfold vbox_new, vbox_new_u. apply usim_bind with (Q1 := Q1).
  { apply usim_unwind with (Q1 := Q1); [apply Hup; intros; lsim|]. apply usim_late; [exact Hs|us]. }
  intros [l|]; [|apply usim_late; [exact Hs|us]]. destruct (from_size_align _ _); [|apply usim_late; [exact Hs|us]].
  apply usim_bind with (Q1 := Q1); [apply usim_early; [exact Hs|apply Hup; intros; lsim]|]. intros p. apply usim_late; [exact Hs|us].
Qed.
Lemma u2_owned_new E B Q1 Q (D : uctx2 E B Q1 Q) t i : usim E B Q1 Q Q (owned_new_in t i) (owned_new_in_u t i).
Proof.
  destruct D as [C Hs Hup]. unfold owned_new_in, owned_new_in_u. apply usim_bind with (Q1 := Q1).
  { apply usim_unwind with (Q1 := Q1); [apply Hup; intros; lsim|]. apply usim_late; [exact Hs|us]. }
  intros [l|]; [|apply usim_late; [exact Hs|us]]. destruct (from_size_align _ _); [|apply usim_late; [exact Hs|us]].
  apply usim_bind with (Q1 := Q1).
  { apply usim_unwind with (Q1 := Q1); [apply Hup; intros; lsim|]. apply usim_late; [exact Hs|us]. }
  intros p. apply usim_late; [exact Hs|us].
Qed.
Lemma u2_seq_push E B Q1 Q (D : uctx2 E B Q1 Q) t chk i : usim E B (Qx Q1) (Qx Q) (Qx Q) (seq_push t chk i) (seq_push_u t chk i).
Proof.
  destruct D as [C Hs Hup].
  assert (Hx : forall s t, @Qx world ustate sq Q1 s t -> Qx Q s t) by (intros s z [H1 H2]; split; auto).
  unfold seq_push, seq_push_u. apply usim_bind with (Q1 := Qx Q1).
  { apply usim_lft. apply usim_unwind with (Q1 := Q1); [apply Hup; intros; lsim|]. apply usim_late; [exact Hs|us]. }
  intros [l|]; [|apply usim_late; [exact Hx|usx]]. cbv zeta. destruct (checked_add _ _) as [x|]; [|apply usim_late; [exact Hx|usx]].
  apply usim_bind with (Q1 := Qx Q1); [apply usim_get|]. intros s. destruct (checked_add (s_occ s) _) as [oc|]; [|apply usim_late; [exact Hx|usx]].
  apply usim_bind with (Q1 := Qx Q1).
  { destruct (s_cap s <? oc); [|apply usim_ret]. apply usim_bind with (Q1 := Qx Q1); [|intros r; apply usim_set].
    apply usim_lft. apply usim_unwind with (Q1 := Q1); [apply Hup; intros; lsim|]. apply usim_late; [exact Hs|us]. }
  intros _. apply usim_late; [exact Hx|]. usx.
Qed.
(** ** operations *)
Definition ures (E B : ub -> Prop) (Q : world -> ustate -> Prop) (o : op) (n : nat) (r ru : res config out) : Prop :=
  (exists u, ru = UB u /\ E u) \/
  match r with
  | Ok x (ws, sl) => exists w slu acts, ru = Ok x (w, merge SDead (own_handles o n) sl slu) /\ Q ws (w, slu, acts)
  | Panic (ws, sl) => exists w slu acts, ru = Panic (w, merge SDead (own_handles o n) sl slu) /\ Q ws (w, slu, acts)
  | UB u => B u \/ ru = UB u
  end.
Lemma ures_call {A} E B Q1 Q o n (m : M world A) mu k kp ws z : usim E B Q1 Q Q m mu -> Q1 ws z -> ures E B Q o n (call m k kp ws) (done_u o n k kp (mu z)).
Proof.
  intros Hm H. unfold call, done_u, ures. destruct (Hm ws z H) as [(u & -> & He)|H2]; [left; eauto|]. right.
  destruct (m ws) as [a ws'|ws'|u]; [| |destruct H2 as [H2|H2]; [auto|rewrite H2; auto]]; destruct H2 as ([[w slu] acts] & -> & H2); exists w, slu, acts; auto.
Qed.
Lemma ures_call_seq {A} E B Q1 Q o n (m : SM A) mu s k kp ws z : usim E B (Qx Q1) (Qx Q) (Qx Q) m mu -> Q1 ws z -> ures E B Q o n (call_seq m s k kp ws) (done_seq_u o n k kp (mu (z, s))).
Proof.
  intros Hm H. unfold call_seq, done_seq_u, ures. destruct (Hm (ws, s) (z, s) (conj H eq_refl)) as [(u & -> & He)|H2]; [left; eauto|]. right.
  destruct (m (ws, s)) as [a [ws' s']|[ws' s']|u]; [| |destruct H2 as [H2|H2]; [auto|rewrite H2; auto]];
    destruct H2 as ([[[w slu] acts] s2] & -> & H2 & E2); cbn [fst snd] in *; subst s2; exists w, slu, acts; auto.
Qed.
Lemma merge_length {A} (d : A) hs l l' : length (merge d hs l l') = length l'.
Proof. unfold merge. now rewrite map_length, seq_length. Qed.
Lemma nth_merge {A} (d : A) hs l l' h : nth_error (merge d hs l l') h =
  if (h <? length l')%nat then Some (if in_dec Nat.eq_dec h hs then nth h l d else nth h l' d) else None.
Proof.
  unfold merge. destruct (Nat.ltb_spec h (length l')) as [H|H].
  - rewrite nth_error_map. replace (nth_error (seq 0 (length l')) h) with (Some h); [reflexivity|].
    symmetry. rewrite (nth_error_nth' _ 0%nat) by (now rewrite seq_length). now rewrite seq_nth.
  - apply nth_error_None. now rewrite map_length, seq_length.
Qed.
Lemma nth_error_nth_eq {A} (l : list A) h d x : nth_error l h = Some x -> nth h l d = x.
Proof. apply nth_error_nth. Qed.
(** If an operation leaves the values it does not mention alone, nothing has to be merged. *)
Lemma merge_self {A} (d : A) hs l l' : length l' = length l -> (forall h, ~ In h hs -> nth_error l' h = nth_error l h) -> merge d hs l l' = l.
Proof.
  intros Hl H. apply nth_ext'. intros h. rewrite nth_merge. destruct (Nat.ltb_spec h (length l')) as [Hh|Hh].
  - destruct (in_dec Nat.eq_dec h hs) as [Hi|Hn].
    + rewrite (nth_error_nth' l d) by lia. reflexivity.
    + rewrite <- (H h Hn), (nth_error_nth' l' d) by lia. reflexivity.
  - symmetry. apply nth_error_None. lia.
Qed.
Lemma kills_others {A} (d : A) l hs h : ~ In h hs -> nth_error (kills d l hs) h = nth_error l h.
Proof. intros H. rewrite nth_kills. destruct (in_dec Nat.eq_dec h hs); [contradiction|reflexivity]. Qed.
Lemma ures_plain {A} E B Q o n (m : M world A) k kp ws w slu acts : usame E B Q m (up m) -> Q ws (w, slu, acts) ->
  (forall a, merge SDead (own_handles o n) (snd (k a)) slu = snd (k a)) -> merge SDead (own_handles o n) kp slu = kp ->
  ures E B Q o n (call m k kp ws) (call m k kp w).
Proof.
  intros Hm H E1 E2. unfold call, ures. destruct (Hm ws _ H) as [(u & Eu & He)|H2].
  { left. cbn [up] in Eu. destruct (m w); try discriminate. injection Eu as ->. eauto. }
  right. cbn [up] in H2. destruct (m ws) as [a ws'|ws'|u]; [| |destruct H2 as [H2|H2]; [auto|right; destruct (m w); try discriminate; congruence]];
    destruct H2 as ([[w1 slu1] acts1] & E3 & H2); destruct (m w) as [b w2|w2|u]; try discriminate; injection E3; intros; subst.
  - exists w1, slu1, acts1. rewrite E1. auto.
  - exists w1, slu1, acts1. rewrite E2. auto.
Qed.
Lemma exec_with_sim E B Q1 Q o ws w sl acts : uctx2 E B Q1 Q -> Q1 ws (w, kill (with_room SDead o sl) (mentions o), acts) ->
  ures E B Q o (length sl) (exec o (ws, sl)) (exec_with o acts (w, sl)).
Proof.
  intros D H1. pose proof D as [C Hs Hup]. pose proof (Hs _ _ H1) as H.
  assert (Hself : creates o = false -> merge SDead (own_handles o (length sl)) sl (kill (with_room SDead o sl) (mentions o)) = sl).
  { intros Ec. unfold with_room, own_handles. rewrite Ec, app_nil_r. apply merge_self; [apply (kills_length SDead)|]. intros h Hh. now apply (kills_others SDead). }
  assert (Hsk : forall h, creates o = false -> mentions o = [h] -> merge SDead (own_handles o (length sl)) (kill sl [h]) (kill (with_room SDead o sl) (mentions o)) = kill sl [h]).
  { intros h Ec Em. unfold with_room, own_handles. rewrite Ec, Em, app_nil_r. apply merge_self; [reflexivity|]. reflexivity. }
  assert (Hl : forall A (m : M world A), (forall R, prims R -> sim R m) -> usame E B Q m (up m)) by (intros; now apply c_up).
  unfold exec_with. destruct o; cbv zeta; cbn [exec];
    try (eapply ures_call; [|exact H1]);
    try match goal with |- ures _ _ _ _ _ (match ?x with _ => _ end) _ => destruct x as [[]|] eqn:? end;
    repeat match goal with |- ures _ _ _ _ _ (match ?x with _ => _ end) _ => destruct x as [] eqn:? end;
    try (right; right; reflexivity);
    try (eapply ures_plain; [apply Hl; intros; lsim|exact H|intros; cbn [fst snd]; apply Hself; reflexivity|apply Hself; reflexivity]);
    try (right; do 3 eexists; split; [|exact H]; rewrite Hself by reflexivity; reflexivity);
    try (eapply ures_call; [|exact H1]; apply usim_late; [exact Hs|]; us; fail).
  - apply usim_bind with (Q1 := Q1); [apply usim_early; [exact Hs|apply Hup; intros; lsim]|]. intros i. now apply u2_vbox_new.
  - apply usim_bind with (Q1 := Q1); [apply usim_early; [exact Hs|apply Hup; intros; lsim]|]. intros i. now apply u2_owned_new.
  - right. exists w, (sl ++ [SDead]), acts. split; [|exact H]. f_equal. f_equal. symmetry. apply merge_self; [rewrite !app_length; reflexivity|].
    cbn. intros h Hh. rewrite !nth_snoc. destruct (Nat.eq_dec h (length sl)); [exfalso; auto|reflexivity].
  - eapply ures_call_seq; [|exact H1]. apply usim_bind with (Q1 := Qx Q1); [|intros i; now apply u2_seq_push].
    apply usim_early; [intros s0 z [? ?]; split; auto|]. apply us_lft, Hup. intros. lsim.
  - eapply ures_call_seq; [|exact H1]. apply usim_late; [intros s0 z [? ?]; split; auto|]. usx.
  - apply usim_late; [exact Hs|]. us.
  - apply usim_late; [exact Hs|]. us.
  - eapply ures_call_seq; [|exact H1]. apply usim_late; [intros s0 z [? ?]; split; auto|]. usx.
  - right. do 3 eexists. split; [|exact H]. now rewrite (Hsk h).
  - right. do 3 eexists. split; [|exact H]. now rewrite (Hsk h).
  - right. do 3 eexists. split; [|exact H]. now rewrite (Hsk h).
  - eapply ures_call_seq; [|exact H1]. apply usim_late; [intros s0 z [? ?]; split; auto|]. usx.
Qed.
