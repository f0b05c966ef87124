(** SessDone.v - one step of a program with live take_elems iterators, whole histories, and code that
    only reads (C59). *)
From Verif Require Export SessLock.

Lemma xexec_ok w sl xs σ ax n o : XInv w sl xs σ ax n -> xallowed σ ax o -> xstep_res σ ax o w n (xexec o (w, sl, xs)).
Proof.
  intros HX Hal. destruct o as [o|h|k|k|k keep|k]; [|apply begin_step|apply next_step|apply len_step|apply end_step|apply unlock_step]; auto.
  inversion Hal; subst. now apply op_step.
Qed.
Lemma xstep_fun σ ax o r s1 d1 s2 d2 : xstep σ ax o r s1 d1 -> xstep σ ax o r s2 d2 -> s1 = s2.
Proof.
  intros H1 H2. destruct H1; inversion H2; subst; try reflexivity;
    repeat match goal with
    | [A : nth_error ?s ?h = Some _, B : nth_error ?s ?h = Some _ |- _] => rewrite A in B; injection B; intros; subst; clear B
    end; try reflexivity; try congruence.
  f_equal. eapply astep_fun; eauto.
Qed.
Lemma reach_x_inv w sl xs σ ax n : reach_x w sl xs σ ax n -> XInv w sl xs σ ax n.
Proof.
  induction 1 as [w Hb|w sl xs σ ax n o r w' sl' xs' σ' ax' d H IH Hal E Hs|w sl xs σ ax n o w' sl' xs' σ' ax' d H IH Hal E Hs].
  - exists (mkW (w_mem w) (w_blocks w) (outside [] (w_alloc w)) (w_tick w) (w_log w)), [], [], []. cbn [concat map hidden].
    assert (Hwf : wf_blocks (w_blocks w)) by (rewrite Hb; split; [intros b []|constructor]).
    assert (Hwd : divided [] (w_blocks w) (w_blocks w)).
    { rewrite Hb. split; [|intros g []]. intros b. split; [intros []|]. intros [[[] _]|(g & [] & _)]. }
    split; [split; [reflexivity|]; split; [reflexivity|]; split; [reflexivity|]; split; [reflexivity|]; split; [exact Hwf|]; split; [exact Hwf|exact Hwd]|].
    split; [constructor|]. split; [apply reach_inv; constructor; exact Hb|]. split; [reflexivity|]. split; [reflexivity|]. split; [constructor|]. split; [intros h []|].
    split; [reflexivity|]. split; [reflexivity|]. intros [|k] x a g Hx; discriminate.
  - pose proof (xexec_ok w sl xs σ ax n o IH Hal) as HS. rewrite E in HS. destruct HS as (σ1 & ax1 & evs & A1 & _ & A2).
    pose proof (xstep_fun _ _ _ _ _ _ _ _ Hs A1) as Es. injection Es as -> ->. destruct o as [[]| | | | |]; exact A2.
  - pose proof (xexec_ok w sl xs σ ax n o IH Hal) as HS. rewrite E in HS. destruct HS as (σ1 & ax1 & evs & A1 & _ & A2).
    pose proof (xstep_fun _ _ _ _ _ _ _ _ Hs A1) as Es. injection Es as -> ->. destruct o as [[]| | | | |]; exact A2.
Qed.

(** ** code that changes nothing *)
Definition still {A} (m : M world A) : Prop := forall w, match m w with Ok _ w' | Panic w' => w' = w | UB _ => True end.
Lemma still_ret {A} (a : A) : still (ret a).
Proof. intros w. reflexivity. Qed.
Lemma still_panic {A} : still (@panic world A).
Proof. intros w. reflexivity. Qed.
Lemma still_undef {A} u : still (@undef world A u).
Proof. intros w. exact I. Qed.
Lemma still_bind {A B} (m : M world A) (k : A -> M world B) : still m -> (forall a, still (k a)) -> still (bind m k).
Proof. intros Hm Hk w. unfold bind. specialize (Hm w). destruct (m w) as [a w'|w'|u]; [|exact Hm|exact I]. subst w'. apply Hk. Qed.
Lemma still_mapM {A B} (f : A -> M world B) : (forall a, still (f a)) -> forall l, still (mapM f l).
Proof.
  intros Hf. induction l as [|x l IH]; cbn [mapM]; [apply still_ret|]. apply still_bind; [apply Hf|]. intros y. apply still_bind; [exact IH|]. intros ys. apply still_ret.
Qed.
Lemma still_check a n al : still (check_ref a n al).
Proof. intros w. unfold check_ref. destruct (a =? 0); [exact I|]. destruct (negb _); [exact I|]. destruct (negb _); [exact I|reflexivity]. Qed.
Lemma still_load a n al : still (load a n al).
Proof. unfold load. apply still_bind; [apply still_check|]. intros _ w. reflexivity. Qed.
Create HintDb stills.
#[export] Hint Resolve still_ret still_panic still_undef still_check still_load : stills.
Ltac still :=
  repeat first
    [ assumption
    | solve [eauto 2 with stills]
    | apply still_bind; [|intros ?]
    | apply still_mapM; intros ?
    | match goal with
      | |- still (let '(_, _) := ?x in _) => destruct x as [? ?]
      | |- still (match ?x with _ => _ end) => destruct x as [] eqn:?
      | |- still (let _ := _ in _) => cbv zeta
      end ].

Lemma still_load_len k a : still (load_len k a).
Proof. unfold load_len. still. Qed.
Lemma still_load_ctrls fs a : still (load_ctrls fs a).
Proof. unfold load_ctrls. still. Qed.
Lemma still_len_call n : still (len_call n).
Proof. unfold len_call. still. Qed.
#[export] Hint Resolve still_load_len still_load_ctrls still_len_call : stills.
Lemma still_layout2 : (forall t a, still (calc_layout t a)) /\ (forall fs cs a size, still (calc_tail fs cs a size)).
Proof. apply vty_flds_ind; intros; cbn [calc_layout calc_tail]; still; auto. all: still; auto. all: still; auto. Qed.
Lemma still_layout t a : still (calc_layout t a).
Proof. apply still_layout2. Qed.
#[export] Hint Resolve still_layout : stills.
Lemma still_read_array f a off n : still (read_array f a off n).
Proof. unfold read_array. still. Qed.
#[export] Hint Resolve still_read_array : stills.
Lemma still_view2 : (forall t a, still (view t a)) /\ (forall fs a es, still (view_flds fs a es)).
Proof. apply vty_flds_ind; intros; cbn [view view_flds]; still. Qed.
Lemma still_view t a : still (view t a).
Proof. apply still_view2. Qed.
Lemma still_next t it : still (iter_next t it).
Proof. unfold iter_next. still. Qed.
#[export] Hint Resolve still_view still_next : stills.
Lemma still_collect t : forall fuel it, still (iter_collect t fuel it).
Proof. induction fuel; intros it; cbn [iter_collect]; still. Qed.
Lemma still_subobject2 : (forall t a p, still (subobject t a p)) /\ (forall fs a es j p, still (subobject_fld fs a es j p)).
Proof. apply vty_flds_ind; intros; cbn [subobject subobject_fld]; still. Qed.
Lemma still_subobject t a p : still (subobject t a p).
Proof. apply still_subobject2. Qed.
#[export] Hint Resolve still_collect still_subobject : stills.
Lemma still_pmul x y : still (pmul x y).
Proof. unfold pmul. still. Qed.
Lemma still_padd x y : still (padd x y).
Proof. unfold padd. still. Qed.
#[export] Hint Resolve still_pmul still_padd : stills.
Lemma still_unchecked t s o : still (from_offset_unchecked t s o).
Proof. unfold from_offset_unchecked. still. Qed.
Lemma still_valid t s o : still (is_offset_valid t s o).
Proof. unfold is_offset_valid. still. Qed.
#[export] Hint Resolve still_unchecked still_valid : stills.
Lemma still_from_offset t s o : still (from_offset t s o).
Proof. unfold from_offset. still. Qed.
#[export] Hint Resolve still_from_offset : stills.
Lemma still_resolve sl pl : still (resolve sl pl).
Proof. unfold resolve. still. Qed.
Lemma still_contents t s : still (seq_contents t s).
Proof. unfold seq_contents. still. Qed.
#[export] Hint Resolve still_resolve still_contents : stills.
Lemma still_call {A} (m : M world A) k sl w r w' sl' : still m -> call m k sl w = Ok r (w', sl') -> w' = w.
Proof. intros Hm E. unfold call in E. specialize (Hm w). destruct (m w); inversion E; subst; auto. Qed.
