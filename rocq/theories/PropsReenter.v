(** PropsReenter.v - C61: user code that uses the crate while an operation of the crate is running. *)
From Verif Require Import ReenterMain PropsProgram TraceSpec.

Lemma run_u_ok us : forall w sl σ n, Inv w sl σ n -> uallowed_all σ us ->
  match run_u us (w, sl) with
  | Ok rs (w', sl') => exists σ' evs m, usteps σ us rs σ' evs m /\ w_log w' = w_log w ++ evs /\ Inv w' sl' σ' (n + m)
  | Panic _ => False
  | UB e => e = UNull /\ existsb makes_box us = true
  end.
Proof.
  induction us as [|u us IH]; intros w sl σ n HI Hal; cbn [run_u].
  - exists σ, [], 0%nat. rewrite app_nil_r, Nat.add_0_r. split; [constructor|auto].
  - inversion Hal as [|? ? ? Hu Hrest]; subst. pose proof (good_all u w sl σ n [] (proj2 (invp_inv _ _ _ _) HI) Hu) as H.
    assert (Hstep : forall r w' sl', upost u w σ n [] r w' sl' ->
      match run_u us (w', sl') with
      | Ok l (w2, sl2) => exists σ' evs m, usteps σ (u :: us) (r :: l) σ' evs m /\ w_log w2 = w_log w ++ evs /\ Inv w2 sl2 σ' (n + m)
      | Panic _ => False
      | UB e => e = UNull /\ existsb makes_box (u :: us) = true
      end).
    { intros r w' sl' (σ1 & ev1 & m1 & S1 & I1 & _ & L1). apply invp_inv in I1. specialize (IH w' sl' σ1 (n + m1)%nat I1 (Hrest _ _ _ _ S1)).
      destruct (run_u us (w', sl')) as [l [w2 sl2]|c|e]; [|exact IH|].
      - destruct IH as (σ2 & ev2 & m2 & S2 & L2 & I2). exists σ2, (ev1 ++ ev2), (m1 + m2)%nat. split; [econstructor; eauto|].
        split; [now rewrite L2, L1, app_assoc|]. now rewrite Nat.add_assoc.
      - destruct IH as [E1 E2]. split; [exact E1|]. cbn. rewrite E2. apply orb_true_r. }
    destruct (exec_u u (w, sl)) as [x [w' sl']|[w' sl']|e].
    + specialize (Hstep _ _ _ H). destruct (run_u us (w', sl')) as [l [w2 sl2]|c|e]; auto.
    + specialize (Hstep _ _ _ H). destruct (run_u us (w', sl')) as [l [w2 sl2]|c|e]; auto.
    + destruct H as [E1 E2]. split; [exact E1|]. cbn. now rewrite E2.
Qed.
(** Heap blocks that no value holds. *)
Definition held_but (L : list N) (w : world) (sl : list slot) : Prop :=
  forall b, In b (w_blocks w) -> b_heap b = true -> In (b_base b) L \/ exists h s, nth_error sl h = Some s /\ In (b_base b) (slot_bases s).
Lemma inv_held w sl σ n : Inv w sl σ n -> exists L, (length L <= n)%nat /\ held_but L w sl.
Proof.
  intros (Hbl & Hlen & Hrep & Hdis & L & HL & Hleak). exists L. split; [exact HL|]. intros b Hin Hh.
  destruct (Hleak b Hin Hh) as [H|(h & s & v & Hah & Hx)]; [left; exact H|right].
  exists h, s. split; [apply Hah|]. pose proof (hblock_base w s v b Hbl (Hrep _ _ _ Hah) Hin Hx) as Hb'.
  destruct s as [t p|t p|t c s|], v as [t' x|t' x|t' c' vs old|]; cbn [slot_bases hblocks] in *; try contradiction.
  + destruct Hb' as [<-|[]]. left. reflexivity.
  + destruct (vsize t x =? 0); [contradiction|]. destruct Hb' as [<-|[]]. discriminate.
  + unfold seq_base. destruct (s_cap s =? 0); [contradiction|]. destruct Hb' as [<-|[]]. left. reflexivity.
Qed.

(** Any program whose user code (closures, iterators, Clone and Default implementations, destructors) itself
    uses the crate, on values that the running operation does not own or borrow, to any depth: no
    undefined behaviour (except VBox::new with an allocator that refuses); every operation, at every level,
    returns or panics exactly as it does when no user code runs, with the same result, the same calls of user code
    and the same destructor calls ([usteps]); and every heap block is held by a value of the program, except one for each
    value forgotten and each VBox::new that panicked. *)
Theorem C61_reentrant : forall w prog,
  w_blocks w = [] -> uallowed_all [] prog ->
  match run_u prog (w, []) with
  | Ok rs (w', sl') => exists σ' evs n, usteps [] prog rs σ' evs n /\ w_log w' = w_log w ++ evs /\
      exists leaked, (length leaked <= n)%nat /\
        forall b, In b (w_blocks w') -> b_heap b = true ->
          In (b_base b) leaked \/ exists h s, nth_error sl' h = Some s /\ In (b_base b) (slot_bases s)
  | Panic _ => False
  | UB e => e = UNull /\ existsb makes_box prog = true
  end.
Proof.
  intros w prog Hw Hal. assert (HI : Inv w [] [] 0) by (apply reach_inv; now constructor).
  pose proof (run_u_ok prog w [] [] 0 HI Hal) as H. destruct (run_u prog (w, [])) as [rs [w' sl']|c|e]; auto.
  destruct H as (σ' & evs & m & S & L & I'). exists σ', evs, m. split; [exact S|]. split; [exact L|]. exact (inv_held _ _ _ _ I').
Qed.
(** Afterwards everything the program holds reads back as the account says. *)
Theorem C61_reads_back : forall w prog rs w' sl',
  w_blocks w = [] -> uallowed_all [] prog -> run_u prog (w, []) = Ok rs (w', sl') ->
  exists σ' evs n, usteps [] prog rs σ' evs n /\
  (forall pl t v, at_place σ' pl = Some (t, v) -> exec (ORead pl) (w', sl') = Ok (OutVal v) (w', sl')) /\
  (forall h t chk vs old, nth_error σ' h = Some (ASeq t chk vs old) -> exec (OReadSeq h) (w', sl') = Ok (OutVals vs) (w', sl')).
Proof.
  intros w prog rs w' sl' Hw Hal E. assert (HI : Inv w [] [] 0) by (apply reach_inv; now constructor).
  pose proof (run_u_ok prog w [] [] 0 HI Hal) as H. rewrite E in H. destruct H as (σ' & evs & m & S & L & I'). exists σ', evs, m. split; [exact S|]. split.
  - intros pl t v Hp. destruct (resolve_ok w' sl' σ' _ pl t v I' Hp) as (a & s0 & v0 & E1 & Hwf & Ho & _).
    cbn [exec]. unfold call. step E1. cbn [fst snd]. now rewrite (view_ok t w' a v Hwf Ho).
  - intros h t chk vs old Hh. destruct (seq_slot w' sl' σ' _ h t chk vs old I' Hh) as (s & Hah & Hwf & Hz & Hat & Hbits).
    cbn [exec]. rewrite (proj1 Hah). unfold call. now rewrite (seq_contents_ok w' t chk s vs Hwf (proj1 I') Hat).
Qed.
(** Without user code this is the model of C45; the variable of a value that could not be made stays empty. *)
Theorem C61_no_user_code : forall o w sl,
  exec_u (UOp o []) (w, sl) =
  match exec o (w, sl) with
  | Ok x c => Ok x c
  | Panic (w', sl') => Panic (w', if creates o then sl' ++ [SDead] else sl')
  | UB u => UB u
  end.
Proof. intros o w sl. cbn [exec_u map]. rewrite exec_alone. destruct (exec o (w, sl)) as [x [w' sl']|[w' sl']|u]; reflexivity. Qed.

(** ** a concrete program *)

(** A sequence is made. While a box is being built, the first call of its closure pushes an element to the
    sequence; the second call drains the sequence, and a destructor that runs then makes a second
    sequence. When the box is dropped, the first of its destructors asks for the length of the sequence
    and the second pushes to it. *)
Definition p_elem : pinit := PFields [PSized 2 (AMoveFrom [h2; h3]); PFixed (by_ [1;2;3;4])].
Definition i_elem : init := IRec [ISized 2 (AMoveFrom [h2; h3]); IFixed (by_ [1;2;3;4])].
Definition u_push : uop := UOp (OPush 0 p_elem) [].
Definition u_drain : uop := UOp (ODrain 0) [[UOp (ONewSeq t_tup false) []]].
Definition u_box : uop := UOp op1 [[u_push]; [u_drain]].
Definition u_drop : uop := UOp (ODrop 1) [[UOp (OLen 0) []]; [u_push]].
Definition prog_ex : list uop := [UOp (ONewSeq t_tup true) []; u_box; u_drop].
Lemma p_elem_den σ : den σ t_tup p_elem i_elem.
Proof. unfold t_tup, p_elem, i_elem. repeat constructor; try (vm_compute; reflexivity); try (unfold aok, elems_ok; cbn; conc). Qed.
Definition has_seq (σ : list aval) : Prop := exists vs old, nth_error σ 0 = Some (ASeq t_tup true vs old).
Lemma push_allowed σ : has_seq σ -> uallowed σ u_push.
Proof.
  intros (vs & old & H). constructor; [|constructor]. eapply L_push; [exact H|apply p_elem_den|]. apply no_moves; [reflexivity|intros h []].
Qed.
Lemma has_room σ o (l : list aval) rs evu nu us : has_seq σ -> usteps (reachable σ o) us rs l evu nu -> (0 < length l)%nat.
Proof.
  intros (vs & old & H) S. apply (proj2 usteps_length) in S. rewrite reachable_length in S. assert (0 < length σ)%nat by (apply nth_error_Some; congruence).
  destruct (creates o); lia.
Qed.
Lemma own_zero l l' hs : In 0%nat hs -> (0 < length l')%nat -> has_seq l -> has_seq (merge ADead hs l l').
Proof.
  intros Hi Hl (vs & old & H). exists vs, old. rewrite nth_merge. destruct (Nat.ltb_spec 0 (length l')); [|lia].
  destruct (in_dec Nat.eq_dec 0%nat hs); [|contradiction]. f_equal. now apply nth_error_nth.
Qed.
Lemma push_keeps σ r σ' evs n : has_seq σ -> ustep σ u_push r σ' evs n -> has_seq σ'.
Proof.
  intros Hs H. inversion H as [? ? ? ? σo evo rs σu evu nu ? Ha Hc Hu Hsh]; subst. apply own_zero; [left; reflexivity|eapply has_room; eauto|].
  destruct Hs as (vs & old & Hs). inversion Ha; subst; cbn [moves kill_vals fold_left p_elem concat map app];
    match goal with X : nth_error σ 0 = Some _ |- _ => rewrite Hs in X; injection X; intros; subst end; [|eexists _, _; exact Hs|eexists _, _; exact Hs].
  eexists _, _. rewrite nth_replace. cbn [Nat.eq_dec]. destruct (Nat.eq_dec 0 0) as [_|X]; [|destruct (X eq_refl)]. rewrite Hs. reflexivity.
Qed.
Lemma drain_keeps σ r σ' evs n : has_seq σ -> ustep σ u_drain r σ' evs n -> has_seq σ'.
Proof.
  intros Hs H. inversion H as [? ? ? ? σo evo rs σu evu nu ? Ha Hc Hu Hsh]; subst. apply own_zero; [left; reflexivity|eapply has_room; eauto|].
  destruct Hs as (vs & old & Hs). inversion Ha; subst.
  match goal with X : nth_error σ 0 = Some _ |- _ => rewrite Hs in X; injection X; intros; subst end. eexists _, _. rewrite nth_replace. cbn [Nat.eq_dec]. destruct (Nat.eq_dec 0 0) as [_|X]; [|destruct (X eq_refl)]. rewrite Hs. reflexivity.
Qed.
Lemma drain_allowed σ : has_seq σ -> uallowed σ u_drain.
Proof.
  intros (vs & old & H). constructor; [eapply L_drain; exact H|]. constructor; [|intros; constructor].
  constructor; [apply L_new_seq; [apply t_tup_wf|apply t_tup_nonzst]|constructor].
Qed.
(** It is allowed. *)
Example C61_meets : uallowed_all [] prog_ex /\ w_blocks w_start = [].
Proof.
  split; [|reflexivity]. constructor; [constructor; [apply L_new_seq; [apply t_tup_wf|apply t_tup_nonzst]|constructor]|].
  intros r σ1 evs n H1. inversion H1 as [? ? ? ? σo evo rs σu evu nu ? Ha Hc Hu Hsh]; subst. inversion Ha; subst.
  assert (Hs1 : merge ADead (own_handles (ONewSeq t_tup true) 0) ([] ++ [ASeq t_tup true [] []]) σu = [ASeq t_tup true [] []]).
  { assert (Eu : concat (firstn (calls evo) []) = @nil uop) by (now rewrite firstn_nil). rewrite Eu in Hu. inversion Hu; subst. reflexivity. }
  cbn [length] in *. rewrite Hs1. clear H1 Ha Hc Hu Hsh Hs1. set (σ := [ASeq t_tup true [] []]).
  assert (Hr : has_seq (reachable σ op1)) by (eexists _, _; reflexivity).
  constructor.
  { constructor; [apply L_new_box with i_ex; [apply t_ex_wf|apply p_ex_den| |vm_compute; reflexivity]; apply no_moves; [reflexivity|intros h []]|].
    constructor; [now apply push_allowed|]. intros r1 σ1 ev1 n1 H1. apply push_keeps in H1; [|exact Hr]. constructor; [now apply drain_allowed|]. intros; constructor. }
  intros r2 σ2 ev2 n2 H2. inversion H2 as [? ? ? ? σo2 evo2 rs2 σu2 evu2 nu2 ? Ha Hc Hu Hsh]; subst. clear H2 Hsh Hc.
  assert (Ho : σo2 = [ASeq t_tup true [] []; ABox t_ex v_ex]).
  { inversion Ha; subst; match goal with X : den σ t_ex p_ex ?i |- _ => assert (i = i_ex) as -> by (eapply (proj1 (den_fun σ)); [exact X|apply p_ex_den]) end.
    - match goal with X : ival _ _ = Some _ |- _ => vm_compute in X; injection X as <- end. reflexivity.
    - match goal with X : fits _ _ = _ |- _ => vm_compute in X; discriminate end.
    - match goal with X : ival _ _ = None |- _ => vm_compute in X; discriminate end. }
  subst σo2.
  assert (Hs2 : has_seq σu2).
  { destruct (calls evo2) as [|[|k]]; cbn [firstn concat app] in Hu.
    - inversion Hu; subst. exact Hr.
    - inversion Hu as [|? ? ? s1 ? ? ? ? ? ? ? U1 U2]; subst. inversion U2; subst. eapply push_keeps; eauto.
    - rewrite firstn_nil in Hu. cbn [concat app] in Hu. inversion Hu as [|? ? ? s1 ? ? ? ? ? ? ? U1 U2]; subst. inversion U2 as [|? ? ? s2 ? ? ? ? ? ? ? U3 U4]; subst. inversion U4; subst.
      eapply drain_keeps; [|exact U3]. eapply push_keeps; eauto. }
  assert (Hl2 : (1 < length σu2)%nat) by (apply (proj2 usteps_length) in Hu; cbn [σ reachable length with_room] in Hu; rewrite reachable_length in Hu; cbn in Hu; lia).
  set (σ3 := merge ADead (own_handles op1 (length σ)) [ASeq t_tup true [] []; ABox t_ex v_ex] σu2).
  assert (H1 : nth_error σ3 1 = Some (ABox t_ex v_ex)).
  { unfold σ3. rewrite nth_merge. destruct (Nat.ltb_spec 1 (length σu2)); [|lia]. reflexivity. }
  assert (H0 : has_seq σ3).
  { destruct Hs2 as (vs & old & Hs2). exists vs, old. unfold σ3. rewrite nth_merge. destruct (Nat.ltb_spec 0 (length σu2)); [|lia].
    cbn [in_dec]. f_equal. destruct (in_dec Nat.eq_dec 0%nat (own_handles op1 (length σ))) as [Hi|_]; [exfalso; cbn in Hi; destruct Hi as [Hi|[]]; discriminate|]. now apply nth_error_nth. }
  assert (H0' : has_seq (reachable σ3 (ODrop 1))).
  { destruct H0 as (vs & old & H0). exists vs, old. rewrite nth_reachable by (apply nth_error_Some; congruence).
    destruct (in_dec Nat.eq_dec 0%nat (mentions (ODrop 1))) as [[Hi|[]]|_]; [discriminate|exact H0]. }
  constructor; [|intros; constructor]. constructor; [eapply L_drop; [exact H1|discriminate]|]. cbn [concat app].
  destruct H0' as (vs & old & H0'). constructor.
  { constructor; [eapply L_len; exact H0'|constructor]. }
  intros r4 σ4 ev4 n4 H4. constructor; [|intros; constructor]. apply push_allowed.
  inversion H4 as [? ? ? ? σo4 evo4 rs4 σu4 evu4 nu4 ? Ha4 Hc4 Hu4 Hsh4]; subst. apply own_zero; [left; reflexivity|eapply has_room; [|exact Hu4]; eexists _, _; exact H0'|].
  inversion Ha4; subst. eexists _, _; exact H0'.
Qed.
(** What it does: every operation returns; the drained element is destroyed while the box is being built,
    and the second sequence exists; in the end the first sequence holds one element, and nothing else is left. *)
Definition end_ex : option (list outcome * list event * config) :=
  match run_u prog_ex (w_start, []) with Ok rs (w, sl) => Some (rs, w_log w, (w, sl)) | _ => None end.
Definition cfg_ex : config := match end_ex with Some (_, _, c) => c | None => (w_start, []) end.
Example C61_meets_run :
  option_map (fun x => fst (fst x)) end_ex = Some [Done OutUnit; Done OutUnit; Done OutUnit] /\
  option_map (fun x => filter user_call (snd (fst x))) end_ex =
    Some [ECall 0; ECall 1; EDrop h2; EDrop h3; EDrop h1; EDrop h2; EDrop h3] /\
  out_of (exec (OReadSeq 0) cfg_ex) = Some (OutVals [v_tup]) /\
  out_of (exec (OReadSeq 2) cfg_ex) = Some (OutVals []) /\
  length (filter b_heap (w_blocks (fst cfg_ex))) = 1%nat.
Proof. vm_compute. repeat split. Qed.
(** C60_reentrant_programs on the same program: the sequence gets its storage while VBox::new, which has
    already allocated, is still running, and the box is freed after the push its destructors made. *)
Definition u_step (u : uop) (c : config) : config := match exec_u u c with Ok _ c' | Panic c' => c' | UB _ => c end.
Lemma runs_ustep c0 u c : runs exec_u c0 c -> runs exec_u c0 (u_step u c).
Proof. intros H. unfold u_step. destruct (exec_u u c) as [r c'|c'|e] eqn:E; [eapply RU_done; eauto|eapply RU_panic; eauto|exact H]. Qed.
Definition cfg_ex3 : config := fold_left (fun c u => u_step u c) prog_ex (w_start, []).
Example C60_reentrant_meets :
  runs exec_u (w_start, []) cfg_ex3 /\ wf_blocks (w_blocks w_start) /\
  filter (fun e => match e with EAlloc _ _ _ | EDealloc _ _ _ | ERealloc _ _ _ _ _ | ECall _ => true | _ => false end) (w_log (fst cfg_ex3)) =
    [EAlloc 4096 52 8; ECall 0; EAlloc 8192 33 8; ECall 1; EDealloc 4096 52 8].
Proof.
  split; [unfold cfg_ex3, prog_ex; cbn [fold_left]; do 3 apply runs_ustep; apply RU_here|].
  split; [split; [contradiction|constructor]|]. vm_compute. reflexivity.
Qed.
