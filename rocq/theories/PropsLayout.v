(** PropsLayout.v - C01 to C05, C38, C39: layouts, construction, reading. *)
From Verif Require Export Examples.

Lemma lay_numbers_top t i : iwt t i -> lay_numbers (sp_lay t (ishape t i)) <> [].
Proof.
  revert i. assert (Hv : forall t v, vok t v -> lay_numbers (sp_lay t (vshape v)) <> []).
  { clear. induction t as [f|f k|t IH|kd hs ha fs]; intros v H; destruct v; cbn [vok vshape sp_lay lay_numbers] in *; try contradiction; try discriminate. now apply IH. }
  induction t as [f|f k|t IH|kd hs ha fs]; intros i H; destruct i; cbn [iwt ishape] in *; try contradiction;
    try (apply Hv; tauto); try discriminate. now apply (IH i).
Qed.

(** C01. The cautious layout is the unbounded layout when all of its numbers are usize values, and
    None otherwise; the computation has no other effect. This is when the length expressions evaluate;
    when one of them panics there is never a layout: the computation gives None (an overflow came
    first) or propagates the panic, with no other effect. *)
Theorem C01_cautious_layout_exact : forall t w i,
  wf_ty t -> usable w t i ->
  let l := sp_lay t (ishape t i) in
  (ilens t i = true -> Forall (fun n => n < W) (lay_numbers l) -> init_layout t i w = Ok (Some l) w) /\
  (ilens t i = true -> ~ Forall (fun n => n < W) (lay_numbers l) -> init_layout t i w = Ok None w) /\
  (ilens t i = false -> init_layout t i w = Ok None w \/ init_layout t i w = Panic w).
Proof.
  intros t w i Hwf Hu l. pose proof (init_layout_ok t w i 0 0 Hwf Hu) as E.
  pose proof (fits_numbers t (ishape t i) Hwf (lay_size_ishape t i (proj1 Hu)) (lay_numbers_top t i (proj1 Hu))) as HF.
  fold l in HF. rewrite HF. fold (isize t i). split; [|split]; intros Hz.
  - intros H. rewrite (E Hz). apply N.ltb_lt in H. now rewrite H.
  - intros H. rewrite (E Hz). apply N.ltb_nlt in H. now rewrite H.
  - exact (init_layout_bad t w i 0 0 Hwf Hu Hz).
Qed.
Example C01_meets : wf_ty t_ex /\ usable w_start t_ex i_ex /\ ilens t_ex i_ex = true /\
  Forall (fun n => n < W) (lay_numbers (sp_lay t_ex (ishape t_ex i_ex))) /\
  init_layout t_ex i_ex w_start =
    Ok (Some (LyRec 52 [(16, LyArr 1 3 4); (20, LyLen 2); (24, LyRec 28 [(0, LyArr 8 2 24); (24, LyFix 4)])])) w_start.
Proof. split; [apply t_ex_wf|]. split; [apply i_ex_usable|]. split; [reflexivity|]. split; [|vm_compute; reflexivity].
  replace (lay_numbers (sp_lay t_ex (ishape t_ex i_ex))) with [52; 16; 1; 4; 20; 24; 28; 0; 8; 24; 24; 4] by (vm_compute; reflexivity).
  conc.
Qed.
(** An array of u32 with 2^62 elements overflows. *)
Example C01_meets_overflow :
  let t := TArray f_u32 LU64 in let i := ISized (2 ^ 62) (AFillDefault (fun _ => Some (by_ [0;0;0;0]))) in
  wf_ty t /\ usable w_start t i /\ init_layout t i w_start = Ok None w_start.
Proof.
  cbv zeta. split; [apply u32_ok|]. split; [|vm_compute; reflexivity]. split; [|split]; cbn; conc. intros j v H. injection H as <-. reflexivity.
Qed.

(** C02. After initialize returns, calculate_layout on the object gives the promised layout. *)
Theorem C02_layout_of_built_object : forall t w i dst l w',
  wf_ty t -> init_ready w t i dst (isize t i) ->
  place_ok (without (w_blocks w) (ibases t i)) t dst (isize t i) ->
  init_layout t i w = Ok (Some l) w ->
  initialize t i dst l w = Ok tt w' ->
  calc_layout t dst w' = Ok l w' /\ lay_size l = isize t i.
Proof.
  intros t w i dst l w' Hwf Hr Hp Hl E. pose proof (init_layout_lens t w i dst _ l w Hwf Hr Hl) as Hz. rewrite (init_layout_ok t w i dst _ Hwf Hr Hz) in Hl.
  destruct (isize t i <? W); [|discriminate]. injection Hl as <-.
  pose proof (initialize_ok t w i dst Hwf Hr Hp Hz) as HB. unfold build_res in HB.
  rewrite (proj1 irun_ival) in HB. destruct (ival t i) as [v|] eqn:Ev; destruct HB as (w1 & E1 & U & HB); rewrite E in E1; [|discriminate].
  injection E1 as <-. destruct (proj1 ival_ok_all t Hwf i v (proj1 Hr) Ev) as [Hv Hs]. specialize (Hv Hz).
  split; [|apply lay_size_ishape, Hr]. rewrite <- Hs. apply calc_layout_ok; [exact Hwf|]. split; [exact Hv|]. split; [|exact HB].
  destruct U as (_ & -> & _). unfold vsize. rewrite Hs. exact Hp.
Qed.

(** C03. initialize writes only inside the destination (of the size the layout says), and never has
    undefined behaviour (out-of-bounds, misaligned, uninitialised accesses). *)
Theorem C03_writes_only_inside : forall t w i dst l,
  wf_ty t -> init_ready w t i dst (isize t i) ->
  place_ok (without (w_blocks w) (ibases t i)) t dst (isize t i) ->
  init_layout t i w = Ok (Some l) w ->
  match initialize t i dst l w with
  | Ok _ w' | Panic w' => forall x, x < dst \/ dst + lay_size l <= x -> w_mem w' x = w_mem w x
  | UB _ => False
  end.
Proof.
  intros t w i dst l Hwf Hr Hp Hl. pose proof (init_layout_lens t w i dst _ l w Hwf Hr Hl) as Hz. rewrite (init_layout_ok t w i dst _ Hwf Hr Hz) in Hl.
  destruct (isize t i <? W); [|discriminate]. injection Hl as <-.
  rewrite lay_size_ishape by apply Hr.
  pose proof (initialize_ok t w i dst Hwf Hr Hp Hz) as HB. unfold build_res in HB.
  destruct (snd (irun t i)) as [v|]; destruct HB as (w1 & -> & U & HB); apply U.
Qed.

(** C04. initialize returns exactly when the initializer describes a value (no closure, clone or
    length check panics), and then reading the object yields that value. *)
Theorem C04_construct_read : forall t w i dst l,
  wf_ty t -> init_ready w t i dst (isize t i) ->
  place_ok (without (w_blocks w) (ibases t i)) t dst (isize t i) ->
  init_layout t i w = Ok (Some l) w ->
  match ival t i with
  | Some v => exists w', initialize t i dst l w = Ok tt w' /\ view t dst w' = Ok v w'
  | None => exists w', initialize t i dst l w = Panic w'
  end.
Proof.
  intros t w i dst l Hwf Hr Hp Hl. pose proof (init_layout_lens t w i dst _ l w Hwf Hr Hl) as Hz. rewrite (init_layout_ok t w i dst _ Hwf Hr Hz) in Hl.
  destruct (isize t i <? W); [|discriminate]. injection Hl as <-.
  pose proof (initialize_ok t w i dst Hwf Hr Hp Hz) as HB. unfold build_res in HB.
  rewrite (proj1 irun_ival) in HB. destruct (ival t i) as [v|] eqn:Ev; destruct HB as (w1 & E1 & U & HB).
  2: { exists w1; auto. }
  exists w1. split; [exact E1|]. destruct (proj1 ival_ok_all t Hwf i v (proj1 Hr) Ev) as [Hv Hs]. specialize (Hv Hz).
  apply view_ok; [exact Hwf|]. split; [exact Hv|]. split; [|exact HB].
  destruct U as (_ & -> & _). unfold vsize. rewrite Hs. exact Hp.
Qed.
(** The hypotheses of C02-C04 on a struct with every kind of field, built in a 52-byte block. *)
Example C04_meets : let w := w_room 52 in
  wf_ty t_ex /\ init_ready w t_ex i_ex 4096 (isize t_ex i_ex) /\
  place_ok (without (w_blocks w) (ibases t_ex i_ex)) t_ex 4096 (isize t_ex i_ex) /\
  ival t_ex i_ex = Some v_ex.
Proof.
  cbv zeta. split; [apply t_ex_wf|]. split; [|split; [|reflexivity]].
  - split; [apply i_ex_usable|]. split; cbn; conc.
  - unfold place_ok. conc. right. eexists. split; [left; reflexivity|]. conc.
Qed.
(** ... and the two calls return: the layout is found and the object is built. *)
Example C02_C03_meets : let w := w_room 52 in exists l w', init_layout t_ex i_ex w = Ok (Some l) w /\ lay_size l = 52 /\ initialize t_ex i_ex 4096 l w = Ok tt w'.
Proof.
  cbv zeta. destruct C04_meets as (H1 & H2 & H3 & H4).
  assert (Hz : ilens t_ex i_ex = true) by reflexivity.
  pose proof (init_layout_ok t_ex (w_room 52) i_ex 4096 _ H1 H2 Hz) as E. change (isize t_ex i_ex <? W) with true in E. cbv iota in E.
  pose proof (C04_construct_read t_ex (w_room 52) i_ex 4096 _ H1 H2 H3 E) as H. rewrite H4 in H. destruct H as (w' & H & _).
  eexists _, w'. split; [exact E|]. split; [|exact H]. rewrite lay_size_ishape by apply H2. reflexivity.
Qed.

(** C05. In the layout of any object all parts are inside the object, pairwise disjoint and aligned;
    ALIGN is a power of two and at least each part's alignment. The same for the layout promised
    by an initializer, at any address that is a multiple of ALIGN. *)
Theorem C05_parts_inside_disjoint_aligned : forall t w a v,
  wf_ty t -> obj_at w t a v ->
  exists l, calc_layout t a w = Ok l w /\
    pow2 (valign t) /\
    ForallOrdPairs parts_apart (parts t l a) /\
    Forall (fun p => a <= p_addr p /\ p_addr p + p_size p <= a + lay_size l /\
                     p_addr p mod p_align p = 0 /\ p_align p <= valign t) (parts t l a).
Proof.
  intros t w a v Hwf Hat. exists (sp_lay t (vshape v)). split; [now apply calc_layout_ok|].
  rewrite valign_sp by exact Hwf. split; [now apply sp_align_pow2|].
  destruct (proj1 parts_facts t Hwf (vshape v) a) as [H1 H2]. split; [exact H2|].
  rewrite lay_size_sp by apply Hat. eapply Forall_impl; [|exact H1]. intros p (P1 & P2 & P3 & P4 & P5).
  repeat split; auto. apply P5. apply Hat.
Qed.
Theorem C05_promised_parts : forall t w i a l,
  wf_ty t -> usable w t i -> init_layout t i w = Ok (Some l) w -> a mod valign t = 0 ->
  ForallOrdPairs parts_apart (parts t l a) /\
  Forall (fun p => a <= p_addr p /\ p_addr p + p_size p <= a + lay_size l /\
                   p_addr p mod p_align p = 0 /\ p_align p <= valign t) (parts t l a).
Proof.
  intros t w i a l Hwf Hu Hl Ha. pose proof (init_layout_lens t w i 0 0 l w Hwf Hu Hl) as Hz. rewrite (init_layout_ok t w i 0 0 Hwf Hu Hz) in Hl.
  destruct (isize t i <? W); [|discriminate]. injection Hl as <-.
  rewrite valign_sp in * by exact Hwf.
  destruct (proj1 parts_facts t Hwf (ishape t i) a) as [H1 H2]. split; [exact H2|].
  rewrite lay_size_ishape by apply Hu. eapply Forall_impl; [|exact H1]. intros p (P1 & P2 & P3 & P4 & P5). repeat split; auto.
Qed.
(** The tail parts of a record come after the header, in declaration order, without overlap. *)
Theorem C05_declaration_order : forall kd hs ha fs w a v,
  let t := TRec kd hs ha fs in
  wf_ty t -> obj_at w t a v ->
  exists size es, calc_layout t a w = Ok (LyRec size es) w /\
    ForallOrdPairs (fun x y => fst x + snd x <= fst y) ((0, hs) :: tail_ranges fs es) /\
    Forall (fun x => fst x + snd x <= size) ((0, hs) :: tail_ranges fs es).
Proof.
  intros kd hs ha fs w a v t Hwf Hat. pose proof (calc_layout_ok t w a v Hwf Hat) as E.
  destruct Hat as (Hv & _). destruct v as [| | |vs]; cbn [t vok] in Hv; try contradiction. cbn [t vshape sp_lay] in E.
  eexists _, _. split; [exact E|].
  destruct Hwf as (Hh & Hfs & _). pose proof (proj2 align_ok fs Hfs) as (_ & Hfp & _). pose proof Hh as (Hha & _ & _ & Hin & Hd).
  destruct (proj2 parts_facts fs Hfs (map vshape vs) hs a hs (N.max ha (sp_falign fs))) as (_ & _ & _ & H4 & H5); auto; try lia.
  { apply pow2_max; auto. }
  { intros off f Hi. destruct (Hin off f Hi) as (A & B & C). repeat split; auto. lia. }
  split.
  - constructor; [|exact H4]. eapply Forall_impl; [|exact H5]. cbn [fst snd]. intros x [H _]. lia.
  - constructor; [cbn [fst snd]; apply sp_end_ge; exact Hfs|]. eapply Forall_impl; [|exact H5]. intros x [_ H]. exact H.
Qed.
Example C05_meets : wf_ty t_ex /\ obj_at w_ex t_ex 4096 v_ex /\
  calc_layout t_ex 4096 w_ex = Ok (sp_lay t_ex (vshape v_ex)) w_ex /\
  parts t_ex (sp_lay t_ex (vshape v_ex)) 4096 =
    [(4104, 1, 1); (4096, 8, 8); (4112, 1, 1); (4113, 1, 1); (4114, 1, 1); (4115, 1, 1);
     (4116, 2, 2); (4118, 2, 2); (4120, 1, 1); (4128, 8, 8); (4136, 8, 8); (4144, 4, 4)].
Proof.
  split; [apply t_ex_wf|]. split; [apply v_ex_at|]. split; [apply calc_layout_ok; [apply t_ex_wf|apply v_ex_at]|vm_compute; reflexivity].
Qed.

(** C38. If NEEDS_VDROP is false, vdrop has no effect and the object holds no value with a
    destructor. *)
Theorem C38_no_vdrop_needed : forall t w a v l,
  wf_ty t -> obj_at w t a v -> needs_vdrop t = false -> calc_layout t a w = Ok l w ->
  exists w', vdrop t a l w = Ok tt w' /\ w_log w' = w_log w /\ w_mem w' = w_mem w /\ w_blocks w' = w_blocks w /\
             vdrops t v = [].
Proof.
  intros t w a v l Hwf Hat Hn Hl. rewrite (calc_layout_ok t w a v Hwf Hat) in Hl. injection Hl as <-.
  pose proof (proj1 no_vdrop_all t v (proj1 Hat) Hn) as Hd.
  rewrite (vdrop_ok t w a v Hwf Hat), Hd. cbn [map]. eexists. split; [reflexivity|]. cbn. rewrite app_nil_r. auto.
Qed.
(** OwnedElems skips the drop loop when neither the Rust type nor the object needs dropping: this
    loses no destructor. *)
Theorem C38_skipping_elements : forall t w it vs,
  wf_ty t -> iter_at w t it vs -> core_needs_drop t = false -> needs_vdrop t = false ->
  concat (map (vdrops t) vs) = [].
Proof.
  intros t w it vs Hwf (_ & _ & Ho) _ Hn. revert Ho. generalize (it_ptr it) as b. induction vs as [|v vs IH]; intros b Ho; [reflexivity|].
  destruct Ho as [H1 H2]. cbn [map concat]. rewrite (proj1 no_vdrop_all t v (proj1 H1) Hn). apply (IH _ H2).
Qed.
Example C38_meets : let t := TStr LU8 in let i := INew (ISized 2 (ACopyFrom [by_ [97]; by_ [98]])) in
  wf_ty t /\ needs_vdrop t = false /\ core_needs_drop t = false /\
  exists w a, obj_at w t a (VNew (VArr [by_ [97]; by_ [98]])).
Proof.
  cbv zeta. split; [apply u8_ok|]. split; [reflexivity|]. split; [reflexivity|].
  exists (match vbox_new (TStr LU8) (INew (ISized 2 (ACopyFrom [by_ [97]; by_ [98]]))) w_start with Ok _ w => w | _ => w_start end), 4096.
  split; [cbn; conc|]. split; [|cbn [repr TStr]; conc].
  unfold place_ok. conc. right. eexists. split; [left; reflexivity|]. conc.
Qed.

(** C39. A newtype has the layout, alignment, bytes, reads and destructor of the inner type. *)
Theorem C39_newtype_transparent : forall t w,
  wf_ty t ->
  valign (TNew t) = valign t /\ head_size (TNew t) = head_size t /\ head_align (TNew t) = head_align t /\
  needs_vdrop (TNew t) = needs_vdrop t /\
  (forall a, calc_layout (TNew t) a w = calc_layout t a w) /\
  (forall a v, obj_at w (TNew t) a (VNew v) <-> obj_at w t a v) /\
  (forall a v, obj_at w t a v -> view (TNew t) a w = Ok (VNew v) w /\ view t a w = Ok v w) /\
  (forall a v l, obj_at w t a v -> calc_layout t a w = Ok l w -> vdrop (TNew t) a l w = vdrop t a l w) /\
  (forall i, init_layout (TNew t) (INew i) w = init_layout t i w) /\
  (forall i dst l, initialize (TNew t) (INew i) dst l w = initialize t i dst l w) /\
  (forall i, drop_init (TNew t) (INew i) w = drop_init t i w).
Proof.
  intros t w Hwf. split; [reflexivity|]. split; [reflexivity|]. split; [reflexivity|]. split; [reflexivity|].
  split; [reflexivity|]. split; [reflexivity|]. split.
  { intros a v H. split; [|apply view_ok; auto]. apply view_ok; auto. }
  split; [|split; [reflexivity|split; reflexivity]].
  intros a v l H Hl. cbn [vdrop]. destruct (needs_vdrop t) eqn:En; [reflexivity|].
  rewrite (calc_layout_ok t w a v Hwf H) in Hl. injection Hl as <-.
  rewrite (vdrop_ok t w a v Hwf H), (proj1 no_vdrop_all t v (proj1 H) En). cbn. unfold add_log. cbn. rewrite app_nil_r. destruct w; reflexivity.
Qed.
Example C39_meets : wf_ty t_ex /\ obj_at w_ex (TNew t_ex) 4096 (VNew v_ex).
Proof. split; [apply t_ex_wf|apply v_ex_at]. Qed.
