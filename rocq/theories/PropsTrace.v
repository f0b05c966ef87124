(** PropsTrace.v - C60: the global allocator is used correctly. *)
From Verif Require Import SessDone TraceReenter.
From Verif Require Import PropsProgram PropsSess.

Lemma tracked_refl w : wf_blocks (w_blocks w) -> tracked w w.
Proof. intros H. split; [exact H|]. exists []. split; [now rewrite app_nil_r|constructor]. Qed.

(** Any program - boxes, owned values, sequences, take_elems iterators in any interleaving - whose
    operations return or panic makes correct calls: it asks only for valid layouts, and it gives back
    and resizes only allocations that exist, naming the size and alignment they were made with. *)
Theorem C60_calls_correct : forall w sl xs w' sl' xs',
  wf_blocks (w_blocks w) -> runs xexec (w, sl, xs) (w', sl', xs') ->
  exists es, w_log w' = w_log w ++ es /\ heap_calls (heap w) es (heap w').
Proof.
  intros w sl xs w' sl' xs' Hwf H.
  assert (G : forall c, runs xexec (w, sl, xs) c -> tracked w (fst (fst c))).
  { intros c Hc. induction Hc as [|[[w1 sl1] xs1] o r c2 _ IH E|[[w1 sl1] xs1] o c2 _ IH E]; [apply tracked_refl, Hwf| |];
      cbn [fst] in IH; pose proof (xexec_keeps w o w1 sl1 xs1 IH) as K; rewrite E in K; exact K. }
  exact (proj2 (G _ H)).
Qed.
(** The same for the programs of C45 (the operations as functions of the state alone). *)
Theorem C60_plain_programs : forall w sl w' sl',
  wf_blocks (w_blocks w) -> runs exec (w, sl) (w', sl') ->
  exists es, w_log w' = w_log w ++ es /\ heap_calls (heap w) es (heap w').
Proof.
  intros w sl w' sl' Hwf H.
  assert (G : forall c, runs exec (w, sl) c -> tracked w (fst c)).
  { intros c Hc. induction Hc as [|[w1 sl1] o r c2 _ IH E|[w1 sl1] o c2 _ IH E]; [apply tracked_refl, Hwf| |];
      cbn [fst] in IH; pose proof (exec_keeps w o w1 sl1 IH) as K; rewrite E in K; exact K. }
  exact (proj2 (G _ H)).
Qed.
(** Programs that read and change the text of Str values. *)
Theorem C60_text_programs : forall w sl w' sl',
  wf_blocks (w_blocks w) -> runs exec_s (w, sl) (w', sl') ->
  exists es, w_log w' = w_log w ++ es /\ heap_calls (heap w) es (heap w').
Proof.
  intros w sl w' sl' Hwf H.
  assert (G : forall c, runs exec_s (w, sl) c -> tracked w (fst c)).
  { intros c Hc. induction Hc as [|[w1 sl1] o r c2 _ IH E|[w1 sl1] o c2 _ IH E]; [apply tracked_refl, Hwf| |];
      cbn [fst] in IH; pose proof (exec_s_keeps w o w1 sl1 IH) as K; rewrite E in K; exact K. }
  exact (proj2 (G _ H)).
Qed.
(** Programs with destructors that panic. *)
Theorem C60_panicking_destructors : forall dp w sl w' sl',
  wf_blocks (w_blocks w) -> runs_p dp (w, sl) (w', sl') ->
  exists es, w_log w' = w_log w ++ es /\ heap_calls (heap w) es (heap w').
Proof.
  intros dp w sl w' sl' Hwf H.
  assert (G : forall c, runs_p dp (w, sl) c -> tracked w (fst c)).
  { intros c Hc. induction Hc as [|[w1 sl1] o r c2 _ IH E|[w1 sl1] o c2 _ IH E]; [apply tracked_refl, Hwf| |];
      cbn [fst] in IH; pose proof (exec_p_keeps w dp o w1 sl1 IH) as K; rewrite E in K; exact K. }
  exact (proj2 (G _ H)).
Qed.

(** Programs whose user code - destructors, closures, iterators, Clone, Default - itself uses the crate,
    to any depth, while the operation that called it is running: the calls of all levels, in the order in
    which they happen, are correct. *)
Theorem C60_reentrant_programs : forall w sl w' sl',
  wf_blocks (w_blocks w) -> runs exec_u (w, sl) (w', sl') ->
  exists es, w_log w' = w_log w ++ es /\ heap_calls (heap w) es (heap w').
Proof.
  intros w sl w' sl' Hwf H.
  assert (G : forall c, runs exec_u (w, sl) c -> tracked w (fst c)).
  { intros c Hc. induction Hc as [|[w1 sl1] o r c2 _ IH E|[w1 sl1] o c2 _ IH E]; [apply tracked_refl, Hwf| |];
      cbn [fst] in IH; pose proof (exec_u_tame w o w1 sl1 IH) as K; rewrite E in K; exact K. }
  exact (proj2 (G _ H)).
Qed.

Lemma heap_empty w : (forall b, In b (w_blocks w) -> b_heap b = false) -> heap w = [].
Proof.
  intros H. unfold heap. induction (w_blocks w) as [|b l IH]; [reflexivity|]. cbn [filter]. rewrite (H b (or_introl eq_refl)). apply IH.
  intros c Hc. apply H. right. exact Hc.
Qed.
(** A program that has dropped everything it made, forgot nothing and saw no VBox::new panic has given
    back every allocation: the calls start and end with nothing allocated, as many deallocs as allocs. *)
Lemma calls_count L es L' : heap_calls L es L' -> (length L + allocs es = length L' + deallocs es)%nat.
Proof.
  unfold allocs, deallocs. induction 1; cbn [filter length] in *; rewrite ?app_length in *; cbn [length] in *; rewrite ?app_length in *; lia.
Qed.
Theorem C60_all_returned : forall w0 w sl xs σ ax,
  w_blocks w0 = [] -> runs xexec (w0, [], []) (w, sl, xs) -> reach_x w sl xs σ ax 0 ->
  (forall h s, nth_error sl h = Some s -> slot_bases s = []) -> (forall k x, nth_error xs k = Some (Some x) -> False) ->
  exists es, w_log w = w_log w0 ++ es /\ heap_calls [] es [] /\ allocs es = deallocs es.
Proof.
  intros w0 w sl xs σ ax H0 Hr HR Hd Hx. destruct (C60_calls_correct w0 [] [] w sl xs) as (es & E & H); [rewrite H0; split; [contradiction|constructor]|exact Hr|].
  assert (Hh0 : heap w0 = []) by (unfold heap; rewrite H0; reflexivity).
  rewrite Hh0, (heap_empty w (C59_all_freed w sl xs σ ax HR Hd Hx)) in H. exists es. split; [exact E|]. split; [exact H|]. apply calls_count in H. exact H.
Qed.

(** What correct calls mean for an address: between two times it is given back, it is handed out again. *)
Definition apart_list (L : list allocation) : Prop :=
  (forall a s al, In (a, s, al) L -> 0 < s) /\ ForallOrdPairs (fun x y => fst (fst x) <> fst (fst y)) L.
Lemma apart_mid L1 x L2 : apart_list (L1 ++ x :: L2) -> apart_list (L1 ++ L2) /\ forall y, In y (L1 ++ L2) -> fst (fst y) <> fst (fst x).
Proof.
  intros [H1 H2]. split.
  - split; [intros a s al Hi; apply (H1 a s al); apply in_app_or in Hi; apply in_or_app; cbn [In]; tauto|]. clear H1. induction L1 as [|y L1 IH]; cbn [app] in *.
    + inversion H2; assumption.
    + inversion H2 as [|? ? Ha Hb]; subst. constructor; [|auto]. rewrite Forall_forall in *. intros u Hu. apply Ha. apply in_app_or in Hu. apply in_or_app. cbn [In]. tauto.
  - clear H1. induction L1 as [|y L1 IH]; cbn [app] in *; intros u Hu.
    + inversion H2 as [|? ? Ha Hb]; subst. rewrite Forall_forall in Ha. specialize (Ha u Hu). congruence.
    + inversion H2 as [|? ? Ha Hb]; subst. destruct Hu as [<-|Hu]; [|auto]. rewrite Forall_forall in Ha. apply Ha. apply in_or_app. right. left. reflexivity.
Qed.
Lemma apart_new L a s al : apart_list L -> 0 < s -> answer_ok L a s al -> apart_list ((a, s, al) :: L).
Proof.
  intros [H1 H2] Hs (_ & _ & _ & Hd). split; [intros a' s' al' [[= <- <- <-]|Hi]; [exact Hs|eauto]|]. constructor; [|exact H2]. rewrite Forall_forall. intros [[b t] bl] Hb. cbn [fst].
  specialize (Hd b t bl Hb). specialize (H1 b t bl Hb). lia.
Qed.
Lemma not_gone a es : forall L L' e es', apart_list L -> heap_calls L (es ++ e :: es') L' -> takes_back a e ->
  (forall y, In y L -> fst (fst y) <> a) -> gives a es.
Proof.
  induction es as [|x es IH]; intros L L' e es' HL H He Hn; cbn [app] in H.
  - destruct e; cbn [takes_back] in He; try contradiction; subst; inversion H; subst.
    + exfalso. eapply Hn; [apply in_or_app; right; left; reflexivity|reflexivity].
    + exfalso. eapply Hn; [apply in_or_app; right; left; reflexivity|reflexivity].
  - assert (Hg : gives a es -> gives a (x :: es)) by (intros (y & Hy & Ey); exists y; split; [right; exact Hy|exact Ey]).
    inversion H; subst; try (apply Hg; eapply IH; eauto; fail).
    + match goal with X : request_ok _ _ |- _ => pose proof (proj1 X) as Hs end. match goal with X : answer_ok _ ?a0 _ _ |- _ => destruct (N.eq_dec a0 a) as [->|Hne] end.
      * eexists. split; [left; reflexivity|reflexivity].
      * apply Hg. eapply IH; [|eassumption|exact He|]; [apply apart_new; assumption|]. intros y [<-|Hy]; [exact Hne|auto].
    + destruct (apart_mid _ _ _ HL) as [Ha Hd]. apply Hg. eapply IH; [exact Ha|eassumption|exact He|]. intros y Hy. apply Hn. apply in_app_or in Hy. apply in_or_app. cbn [In]. tauto.
    + match goal with X : request_ok _ _ |- _ => pose proof (proj1 X) as Hs end. destruct (apart_mid _ _ _ HL) as [Ha Hd].
      match goal with X : answer_ok _ ?a0 _ _ |- _ => destruct (N.eq_dec a0 a) as [->|Hne] end.
      * eexists. split; [left; reflexivity|reflexivity].
      * apply Hg. eapply IH; [|eassumption|exact He|]; [apply apart_new; assumption|]. intros y [<-|Hy]; [exact Hne|]. apply Hn. apply in_app_or in Hy. apply in_or_app. cbn [In]. tauto.
Qed.
Lemma calls_at L es1 e es2 L' : apart_list L -> heap_calls L (es1 ++ e :: es2) L' -> exists L1, apart_list L1 /\ heap_calls L1 (e :: es2) L'.
Proof.
  revert L. induction es1 as [|x es1 IH]; intros L HL H; [eauto|]. cbn [app] in H. inversion H; subst; try (eapply IH; [|eassumption]; assumption).
  - eapply IH; [|eassumption]. apply apart_new; [exact HL| |assumption]. match goal with X : request_ok _ _ |- _ => exact (proj1 X) end.
  - eapply IH; [|eassumption]. exact (proj1 (apart_mid _ _ _ HL)).
  - eapply IH; [|eassumption]. apply apart_new; [exact (proj1 (apart_mid _ _ _ HL))| |assumption]. match goal with X : request_ok _ _ |- _ => exact (proj1 X) end.
Qed.
(** No double free: in every program started with nothing allocated, between two calls that give back
    the same address (dealloc, or realloc of it) there is a call that returned this address. *)
Theorem C60_no_double_free : forall w0 w sl xs a es1 e1 es2 e2 es3,
  w_blocks w0 = [] -> runs xexec (w0, [], []) (w, sl, xs) ->
  w_log w = w_log w0 ++ es1 ++ e1 :: es2 ++ e2 :: es3 -> takes_back a e1 -> takes_back a e2 ->
  gives a (e1 :: es2).
Proof.
  intros w0 w sl xs a es1 e1 es2 e2 es3 H0 Hr El T1 T2. destruct (C60_calls_correct w0 [] [] w sl xs) as (es & E & H); [rewrite H0; split; [contradiction|constructor]|exact Hr|].
  rewrite El in E. apply app_inv_head in E. subst es. unfold heap at 1 in H. rewrite H0 in H. cbn [filter map] in H.
  assert (HA : apart_list []) by (split; [contradiction|constructor]).
  destruct (calls_at _ _ _ _ _ HA H) as (L1 & HL1 & H1). clear H. destruct e1; cbn [takes_back] in T1; try contradiction; subst; inversion H1; subst.
  - destruct (apart_mid _ _ _ HL1) as [Ha Hd]. match goal with X : heap_calls (_ ++ _) _ _ |- _ => eapply not_gone in X end; [|exact Ha|exact T2|exact Hd].
    match goal with X : gives a _ |- _ => destruct X as (y & Hy & Ey) end. exists y. split; [right; exact Hy|exact Ey].
  - destruct (apart_mid _ _ _ HL1) as [Ha Hd]. match goal with X : request_ok _ _ |- _ => pose proof (proj1 X) as Hs end.
    match goal with X : answer_ok _ ?a0 _ _ |- _ => destruct (N.eq_dec a0 a) as [->|Hne] end; [eexists; split; [left; reflexivity|reflexivity]|].
    match goal with X : heap_calls (_ :: _ ++ _) _ _ |- _ => eapply not_gone in X end; [|apply apart_new; eassumption|exact T2|intros y [<-|Hy]; [exact Hne|exact (Hd y Hy)]].
    match goal with X : gives a _ |- _ => destruct X as (y & Hy & Ey) end. exists y. split; [right; exact Hy|exact Ey].
Qed.

(** ** a concrete program *)
Lemma runs_xstep c0 o c : runs xexec c0 c -> runs xexec c0 (xstep_cfg o c).
Proof. intros H. unfold xstep_cfg. destruct (xexec o c) as [r c'|c'|u] eqn:E; [eapply RU_done; eauto|eapply RU_panic; eauto|exact H]. Qed.
Lemma x_step_cfg o c : out_of (exec o c) <> None -> xstep_cfg (XOp o) (c, []) = (step_cfg o c, []).
Proof. unfold xstep_cfg, step_cfg, out_of, cfg_of. destruct c as [w sl]. cbn [xexec]. destruct (exec o (w, sl)) as [r [w' sl']|[w' sl']|u]; intros H; [reflexivity|congruence|congruence]. Qed.
Lemma runs_step c0 o c : runs xexec c0 (c, []) -> out_of (exec o c) <> None -> runs xexec c0 (step_cfg o c, []).
Proof. intros H E. rewrite <- (x_step_cfg o c E). apply runs_xstep, H. Qed.
Definition x17 := xstep_cfg (XOp (ODrop 1)) x16.
Definition x18 := xstep_cfg (XOp (ODrop 2)) x17.
Definition heap_events (es : list event) : list event :=
  filter (fun e => match e with EAlloc _ _ _ | EDealloc _ _ _ | ERealloc _ _ _ _ _ => true | _ => false end) es.
(** The program of C59, to its end: everything is dropped, and the calls of the allocator. *)
Lemma runs_x16 : runs xexec (w_start, [], []) x16.
Proof.
  do 16 apply runs_xstep. unfold x0. repeat (apply runs_step; [|vm_compute; discriminate]). apply RU_here.
Qed.
Example C60_meets : runs xexec (w_start, [], []) x18 /\ wf_blocks (w_blocks w_start) /\ w_blocks w_start = [] /\ w_log w_start = [] /\
  (exists σ ax, reach_x (fst (fst x18)) (snd (fst x18)) (snd x18) σ ax 0) /\
  (forall h s, nth_error (snd (fst x18)) h = Some s -> slot_bases s = []) /\ (forall k x, nth_error (snd x18) k = Some (Some x) -> False).
Proof.
  split; [do 2 apply runs_xstep; exact runs_x16|]. split; [split; [contradiction|constructor]|]. split; [reflexivity|]. split; [reflexivity|]. split; [|split].
  - destruct C59_meets as (_ & _ & R).
    assert (R17 : at_x x17 [ADead; ADead; ASeq t_tup false [v_tup] x_old2; ADead; ADead; ADead] [None; None] 0).
    { apply (reach_xstep x16 _ _ 0 (XOp (ODrop 1)) OutUnit _ _ [h2; h3] R); [constructor; eapply L_drop; [reflexivity|discriminate]|vm_compute; reflexivity|].
      constructor. apply (A_drop [ADead; ASeq t_tup true [v_tup] x_old1; ASeq t_tup false [v_tup] x_old2; ADead; ADead; ADead] 1 (ASeq t_tup true [v_tup] x_old1)); [reflexivity|discriminate]. }
    exists [ADead; ADead; ADead; ADead; ADead; ADead], [None; None].
    apply (reach_xstep x17 _ _ 0 (XOp (ODrop 2)) OutUnit _ _ [h2; h3] R17); [constructor; eapply L_drop; [reflexivity|discriminate]|vm_compute; reflexivity|].
    constructor. apply (A_drop [ADead; ADead; ASeq t_tup false [v_tup] x_old2; ADead; ADead; ADead] 2 (ASeq t_tup false [v_tup] x_old2)); [reflexivity|discriminate].
  - assert (E : snd (fst x18) = [SDead; SDead; SDead; SDead; SDead; SDead]) by (vm_compute; reflexivity). rewrite E.
    intros h s Hs. apply nth_error_In in Hs. cbn [In] in Hs. repeat (destruct Hs as [<-|Hs]; [reflexivity|]). destruct Hs.
  - assert (E : snd x18 = [None; None]) by (vm_compute; reflexivity). rewrite E. intros [|[|[|k]]] x Hx; discriminate.
Qed.
Example C60_meets_calls : heap_events (w_log (fst (fst x18))) =
  [EAlloc 4096 52 8; EAlloc 8192 33 8; ERealloc 8192 33 8 12288 65; EDealloc 4096 52 8; EAlloc 16384 32 8;
   EDealloc 12288 65 8; EDealloc 16384 32 8].
Proof. vm_compute. reflexivity. Qed.
