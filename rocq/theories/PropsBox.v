(** PropsBox.v - C07 to C14, C27, C28 (VBox), C35, C44, C46: copies, clones, boxes, owned objects. *)
From Coq Require Import Permutation.
From Verif Require Export BoxFacts.

Lemma init_layout_some t w i dst n l :
  wf_ty t -> init_ready w t i dst n -> init_layout t i w = Ok (Some l) w -> l = sp_lay t (ishape t i) /\ isize t i < W.
Proof.
  intros Hwf Hr Hl. rewrite (init_layout_ok t w i dst _ Hwf Hr (init_layout_lens t w i dst _ l w Hwf Hr Hl)) in Hl.
  destruct (N.ltb_spec (isize t i) W); [|discriminate]. injection Hl as <-. auto.
Qed.
Lemma in_without1 bl a b : In b (without bl [a]) <-> In b bl /\ b_base b <> a.
Proof. rewrite in_without. cbn [In]. split; intros [H1 H2]; split; auto. intros [E|[]]. auto. Qed.
Lemma obj_W t w a v : obj_at w t a v -> vsize t v < W.
Proof. intros (_ & (_ & _ & H & _) & _). lia. Qed.
(** The source of a copy or clone is still there afterwards. *)
Lemma source_kept t w w' a v dst n evs :
  wf_ty t -> obj_at w t a v -> apart a (vsize t v) dst n -> upd w w' dst n [] evs -> obj_at w' t a v.
Proof.
  intros Hwf Ho Ha U. eapply obj_frame; [exact Hwf|exact Ho|apply U|exact Ha|].
  rewrite (upd_blocks _ _ _ _ _ _ U), without_nil. apply Ho.
Qed.

(** C07. Initializing from vcopy(): the new object reads back as the source, the source is
    unchanged, no destructor, clone or (de)allocation happens. *)
Theorem C07_vcopy : forall t w a v dst,
  wf_ty t -> plain t -> obj_at w t a v ->
  place_ok (w_blocks w) t dst (vsize t v) -> apart a (vsize t v) dst (vsize t v) ->
  exists l w',
    init_layout t (vcopy a v) w = Ok (Some l) w /\ calc_layout t a w = Ok l w /\
    initialize t (vcopy a v) dst l w = Ok tt w' /\
    view t dst w' = Ok v w' /\ view t a w' = Ok v w' /\
    rd (w_mem w') a (vsize t v) = rd (w_mem w) a (vsize t v) /\
    w_log w' = w_log w /\ w_blocks w' = w_blocks w.
Proof.
  intros t w a v dst Hwf Hpl Ho Hp Ha. pose proof Ho as (Hv & Hpa & Hr).
  assert (R : init_ready w t (vcopy a v) dst (isize t (vcopy a v))).
  { split; [destruct t; split; assumption|]. split; [destruct t; constructor|]. destruct t; cbn [isrc vcopy ibases iboxes map]; (split; [|exact Ha]); (split; [|exact Hr]); rewrite without_nil; exact Hpa. }
  assert (Hb : ibases t (vcopy a v) = []) by (destruct t; reflexivity).
  assert (Hz : ilens t (vcopy a v) = true) by (destruct t; reflexivity).
  assert (Hs : isize t (vcopy a v) = vsize t v) by (destruct t; reflexivity).
  assert (Hsh : ishape t (vcopy a v) = vshape v) by (destruct t; reflexivity).
  assert (Hi : irun t (vcopy a v) = ([], Some v)) by (destruct t; reflexivity).
  pose proof (init_layout_ok t w _ dst _ Hwf R Hz) as El. rewrite Hs, Hsh in El. pose proof (obj_W _ _ _ _ Ho) as HW. apply N.ltb_lt in HW. rewrite HW in El.
  pose proof (fun P => initialize_ok t w _ dst Hwf R P Hz) as HB. rewrite Hb, without_nil, Hs in HB. specialize (HB Hp). unfold build_res in HB.
  rewrite Hi, Hb, Hs, Hsh in HB. cbn [fst snd] in HB. destruct HB as (w' & E & U & Hr').
  exists (sp_lay t (vshape v)), w'. split; [exact El|]. split; [now apply calc_layout_ok|]. split; [exact E|].
  pose proof (source_kept t w w' a v dst _ _ Hwf Ho Ha U) as Ho'.
  pose proof (upd_blocks _ _ _ _ _ _ U) as Ub. rewrite without_nil in Ub.
  split; [apply view_ok; [exact Hwf|]; split; [exact Hv|]; split; [rewrite Ub; exact Hp|exact Hr']|].
  split; [now apply view_ok|]. split.
  - apply rd_ext. intros x Hx. apply (upd_mem _ _ _ _ _ _ U). unfold apart in Ha. lia.
  - split; [rewrite (upd_log_eq _ _ _ _ _ _ U); apply app_nil_r|exact Ub].
Qed.

(** C08. vclone() yields an initializer with the layout of the source; using it clones every leaf
    exactly once, in order, and the result is the leafwise clone. If a clone panics (leaf [k] is the first
    whose clone does), the leaves up to that one have been cloned. The source is unchanged in every case. *)
Theorem C08_vclone : forall t w a v dst,
  wf_ty t -> clonable t -> obj_at w t a v ->
  place_ok (w_blocks w) t dst (vsize t v) -> apart a (vsize t v) dst (vsize t v) ->
  exists i l,
    vclone t a w = Ok i w /\ init_layout t i w = Ok (Some l) w /\ calc_layout t a w = Ok l w /\
    match clone_val t v with
    | Some v' => exists w', initialize t i dst l w = Ok tt w' /\
        view t dst w' = Ok v' w' /\ vshape v' = vshape v /\ map Some (vleaves v') = leaf_clones t v /\ view t a w' = Ok v w' /\
        w_log w' = w_log w ++ map EClone (vleaves v) /\ w_blocks w' = w_blocks w
    | None => exists w' k, initialize t i dst l w = Panic w' /\ first_none (leaf_clones t v) k /\ (k < length (vleaves v))%nat /\
        view t a w' = Ok v w' /\
        w_log w' = w_log w ++ map EClone (firstn (S k) (vleaves v)) /\ w_blocks w' = w_blocks w
    end.
Proof.
  intros t w a v dst Hwf Hc Ho Hp Ha. pose proof Ho as (Hv & Hpa & Hr).
  destruct (vclone_ok2 t w a v Hwf Hc Ho) as (i & Ec & Hi & (N1 & N2 & N3) & Hsh & Hiv & Hrun & Hdr & Hpan).
  assert (Hb : ibases t i = []) by (unfold ibases; rewrite N1; reflexivity).
  assert (Hs : isize t i = vsize t v) by (unfold isize, vsize; now rewrite Hsh).
  assert (R : init_ready w t i dst (isize t i)).
  { split; [exact Hi|]. split; [rewrite Hb; constructor|]. apply N3. rewrite Hb, without_nil.
    destruct Hpa as (_ & _ & _ & Pl). split; [exact Pl|]. split; [auto|]. rewrite Hs. exact Ha. }
  assert (Hz : ilens t i = true) by now apply clonable_lens.
  exists (strip i), (sp_lay t (vshape v)). split; [exact Ec|]. rewrite (proj1 layout_strip).
  pose proof (init_layout_ok t w _ dst _ Hwf R Hz) as El. rewrite Hs, Hsh in El. pose proof (obj_W _ _ _ _ Ho) as HW. apply N.ltb_lt in HW. rewrite HW in El.
  split; [exact El|]. split; [now apply calc_layout_ok|].
  pose proof (fun P => initialize_ok t w _ dst Hwf R P Hz) as HB. rewrite Hb, without_nil, Hs in HB. specialize (HB Hp). unfold build_res in HB.
  rewrite <- (proj1 initialize_strip) in HB. rewrite Hb, Hs, Hsh, (proj1 irun_ival), Hiv in HB.
  destruct (clone_val t v) as [v'|] eqn:Ev.
  - rewrite Hrun in HB by congruence. destruct HB as (w' & E & U & Hr'). exists w'. split; [exact E|].
    pose proof (source_kept t w w' a v dst _ _ Hwf Ho Ha U) as Ho'.
    pose proof (upd_blocks _ _ _ _ _ _ U) as Ub. rewrite without_nil in Ub.
    destruct (proj1 ival_ok_all t Hwf i v' Hi Hiv) as [Hv' Hs']. specialize (Hv' Hz). rewrite Hsh in Hs'.
    split; [apply view_ok; [exact Hwf|]; split; [exact Hv'|]; split; [rewrite Ub; unfold vsize; rewrite Hs'; exact Hp|exact Hr']|].
    split; [exact Hs'|]. split; [now apply clone_leaves|]. split; [now apply view_ok|]. split; [apply U|exact Ub].
  - destruct (Hpan eq_refl) as (k & (Hk & Hf) & Ek). rewrite Ek in HB. destruct HB as (w' & E & U). exists w', k. split; [exact E|]. split; [exact Hf|]. split; [exact Hk|].
    pose proof (source_kept t w w' a v dst _ _ Hwf Ho Ha U) as Ho'.
    pose proof (upd_blocks _ _ _ _ _ _ U) as Ub. rewrite without_nil in Ub.
    split; [now apply view_ok|]. split; [apply U|exact Ub].
Qed.
(** A Tup2<Array<Box<_>, u8>, FixedLen<u32>> and a Str, in a block with room for a second copy. *)
Definition t_str : vty := TStr LU8.
Definition v_str : vval := VNew (VArr [by_ [97]; by_ [98]; by_ [99]]).
Definition v_tup : vval := VRec [VArr [h2; h3]; VFix (by_ [1;2;3;4])].
Definition w_tup : world :=
  match initialize t_tup (IRec [ISized 2 (AMoveFrom [h2; h3]); IFixed (by_ [1;2;3;4])]) 4096
          (sp_lay t_tup (vshape v_tup)) (w_room 128) with Ok _ w => w | _ => w_room 128 end.
Definition w_str : world :=
  match initialize t_str (INew (ISized 3 (ACopyFrom [by_ [97]; by_ [98]; by_ [99]]))) 4096
          (sp_lay t_str (vshape v_str)) (w_room 128) with Ok _ w => w | _ => w_room 128 end.
Lemma w_tup_at : obj_at w_tup t_tup 4096 v_tup.
Proof.
  split; [cbn; conc|]. split; [|cbn [repr repr_flds t_tup v_tup]; conc]. unfold place_ok. conc. right. exists (mkB 4096 128 8 true).
  split; [vm_compute; left; reflexivity|]. conc.
Qed.
Lemma w_str_at : obj_at w_str t_str 4096 v_str.
Proof.
  split; [cbn; conc|]. split; [|cbn [repr t_str TStr v_str]; conc]. unfold place_ok. conc. right. exists (mkB 4096 128 8 true).
  split; [vm_compute; left; reflexivity|]. conc.
Qed.
Example C07_meets : wf_ty t_str /\ plain t_str /\ obj_at w_str t_str 4096 v_str /\
  place_ok (w_blocks w_str) t_str 4100 (vsize t_str v_str) /\ apart 4096 (vsize t_str v_str) 4100 (vsize t_str v_str).
Proof.
  split; [apply u8_ok|]. split; [reflexivity|]. split; [apply w_str_at|]. split.
  - unfold place_ok. conc. right. exists (mkB 4096 128 8 true). split; [vm_compute; left; reflexivity|]. conc.
  - right; right; left. conc.
Qed.
Example C08_meets : wf_ty t_tup /\ clonable t_tup /\ obj_at w_tup t_tup 4096 v_tup /\
  place_ok (w_blocks w_tup) t_tup 4136 (vsize t_tup v_tup) /\ apart 4096 (vsize t_tup v_tup) 4136 (vsize t_tup v_tup) /\
  clone_val t_tup v_tup = Some v_tup.
Proof.
  split; [apply t_tup_wf|]. split; [cbn; conc|]. split; [apply w_tup_at|]. split; [|split; [|reflexivity]].
  - unfold place_ok. conc. right. exists (mkB 4096 128 8 true). split; [vm_compute; left; reflexivity|]. conc.
  - right; right; left. conc.
Qed.

(** C09. VBox::new makes exactly one allocation request, of exactly the size and alignment of the
    object; whenever the box is dropped later, after any mutations, exactly that block is given back
    with the same size and alignment, and every other allocation stays as it is. *)
Theorem C09_vbox_new_requests : forall t w i p w',
  wf_ty t -> wf_blocks (w_blocks w) -> usable w t i -> vbox_new t i w = Ok p w' ->
  exists n evs, w_log w' = w_log w ++ EAlloc p n (valign t) :: evs /\ requests evs = 0 /\
    calc_layout t p w' = Ok (sp_lay t (ishape t i)) w' /\ n = lay_size (sp_lay t (ishape t i)).
Proof.
  intros t w i p w' Hwf Hbl Hu E. destruct (vbox_new_ok t w i p w' Hwf Hbl Hu E) as (v & Ev & [Ho _] & Hs & _ & _ & _ & _ & El & _).
  exists (isize t i), (fst (irun t i)). rewrite (valign_sp t Hwf). split; [exact El|]. split; [apply requests_irun|].
  split; [|symmetry; apply lay_size_ishape, Hu]. destruct (proj1 ival_ok_all t Hwf i v (proj1 Hu) Ev) as [_ Hsh]. rewrite <- Hsh. now apply calc_layout_ok.
Qed.
Theorem C09_vbox_drop_matches : forall t w p n,
  wf_ty t -> box_hist t w p n ->
  exists w' evs, vbox_drop t p w = Ok tt w' /\
    w_log w' = w_log w ++ evs ++ [EDealloc p n (valign t)] /\ frees_of evs = [] /\
    (forall b, In b (w_blocks w') <-> In b (w_blocks w) /\ b_base b <> p) /\
    (forall x, w_mem w' x = w_mem w x).
Proof.
  intros t w p n Hwf H. destruct (box_hist_inv t w p n Hwf H) as (Hw & v & [Ho Hb] & Hs).
  rewrite (vbox_drop_ok t w p v Hwf Ho Hb). eexists _, (map EDrop (vdrops t v)). split; [reflexivity|].
  rewrite (valign_sp t Hwf). cbn [w_log w_blocks w_mem add_log set_blocks]. rewrite Hs. split; [reflexivity|]. split.
  - induction (vdrops t v); cbn; auto.
  - split; [|reflexivity]. intros b. apply in_without1.
Qed.
Example C09_meets : exists w', box_hist t_ex w' 4096 52 /\ wf_ty t_ex.
Proof.
  assert (H : match assign t_ex 4096 (PFld 1 PHere) h3 w_ex with Ok _ _ => True | _ => False end) by (vm_compute; exact I).
  destruct (assign t_ex 4096 (PFld 1 PHere) h3 w_ex) as [[] w'| |] eqn:E; [|contradiction|contradiction]. exists w'. split; [|apply t_ex_wf].
  apply (B_assign t_ex w_ex 4096 52 (PFld 1 PHere) f_box h3 w'); [|reflexivity|reflexivity|exact E].
  destruct (C09_vbox_new_requests _ _ _ _ _ t_ex_wf w_start_ok i_ex_usable w_ex_new) as (n & evs & El & _ & _ & En).
  assert (E52 : n = 52) by (rewrite En; vm_compute; reflexivity). subst n. rewrite E52 in El.
  apply (B_new t_ex w_start i_ex 4096 w_ex 52 evs w_start_ok i_ex_usable w_ex_new).
  rewrite El. rewrite (valign_sp _ t_ex_wf). reflexivity.
Qed.

(** C10. vdrop, and dropping a VBox or Owned, runs the destructor of every contained value that has
    one exactly once, in declaration / index order ([vdrops]), and no other. *)
Theorem C10_vdrop_each_once : forall t w a v l,
  wf_ty t -> obj_at w t a v -> calc_layout t a w = Ok l w ->
  exists w', vdrop t a l w = Ok tt w' /\ w_log w' = w_log w ++ map EDrop (vdrops t v) /\
    w_mem w' = w_mem w /\ w_blocks w' = w_blocks w.
Proof.
  intros t w a v l Hwf Ho Hl. rewrite (calc_layout_ok t w a v Hwf Ho) in Hl. injection Hl as <-.
  rewrite (vdrop_ok t w a v Hwf Ho). eexists. split; [reflexivity|]. auto.
Qed.
Theorem C10_vbox_drop_each_once : forall t w a v,
  wf_ty t -> box_at w t a v ->
  exists w', vbox_drop t a w = Ok tt w' /\ drops_of (w_log w') = drops_of (w_log w) ++ vdrops t v.
Proof.
  intros t w a v Hwf [Ho Hb]. rewrite (vbox_drop_ok t w a v Hwf Ho Hb). eexists. split; [reflexivity|]. cbn [w_log add_log set_blocks].
  assert (G : forall l1 l2, drops_of (l1 ++ l2) = drops_of l1 ++ drops_of l2) by (induction l1 as [|e l1 IH]; intros l2; [reflexivity|]; destruct e; cbn; rewrite ?IH; reflexivity).
  rewrite !G. f_equal. cbn. rewrite app_nil_r. induction (vdrops t v); cbn; congruence.
Qed.
Example C10_meets : wf_ty t_ex /\ box_at w_ex t_ex 4096 v_ex /\ vdrops t_ex v_ex = [h1; h2; h3].
Proof.
  split; [apply t_ex_wf|]. split; [|reflexivity]. split; [apply v_ex_at|]. rewrite w_ex_blocks. left. vm_compute. reflexivity.
Qed.

(** C11. A VBox used as an initializer moves its contents: the destination reads back as the
    contents, the box's allocation is freed once with its layout, no destructor runs. *)
Theorem C11_vbox_moves : forall t w a v dst,
  wf_ty t -> box_at w t a v ->
  place_ok (without (w_blocks w) [a]) t dst (vsize t v) -> apart a (vsize t v) dst (vsize t v) ->
  exists l w', init_layout t (IBox a v) w = Ok (Some l) w /\ initialize t (IBox a v) dst l w = Ok tt w' /\
    view t dst w' = Ok v w' /\
    w_log w' = w_log w ++ [EDealloc a (vsize t v) (valign t)] /\
    (forall b, In b (w_blocks w') <-> In b (w_blocks w) /\ b_base b <> a).
Proof.
  intros t w a v dst Hwf [Ho Hb] Hp Ha. pose proof Ho as (Hv & Hpa & Hr).
  assert (Hbs : ibases t (IBox a v) = [a]) by (destruct t; reflexivity).
  assert (R : init_ready w t (IBox a v) dst (isize t (IBox a v))).
  { split; [destruct t; exact Hv|]. split; [rewrite Hbs; repeat constructor; intros []|]. destruct t; cbn [isrc]; repeat split; auto; apply Hpa. }
  assert (Hz : ilens t (IBox a v) = true) by (destruct t; reflexivity).
  assert (Hs : isize t (IBox a v) = vsize t v) by (destruct t; reflexivity).
  assert (Hsh : ishape t (IBox a v) = vshape v) by (destruct t; reflexivity).
  assert (Hi : irun t (IBox a v) = ([EDealloc a (vsize t v) (sp_align t)], Some v)) by (destruct t; reflexivity).
  pose proof (init_layout_ok t w _ dst _ Hwf R Hz) as El. rewrite Hs, Hsh in El. pose proof (obj_W _ _ _ _ Ho) as HW. apply N.ltb_lt in HW. rewrite HW in El.
  pose proof (fun P => initialize_ok t w _ dst Hwf R P Hz) as HB. rewrite Hbs, Hs in HB. specialize (HB Hp). unfold build_res in HB.
  rewrite Hi, Hbs, Hs, Hsh in HB. cbn [fst snd] in HB. destruct HB as (w' & E & U & Hr').
  exists (sp_lay t (vshape v)), w'. split; [exact El|]. split; [exact E|].
  pose proof (upd_blocks _ _ _ _ _ _ U) as Ub.
  split; [apply view_ok; [exact Hwf|]; split; [exact Hv|]; split; [rewrite Ub; exact Hp|exact Hr']|].
  rewrite (valign_sp t Hwf). split; [apply U|]. intros b. rewrite Ub. apply in_without1.
Qed.
Example C11_meets :
  let w := set_blocks w_ex (mkB 8192 60 8 true :: w_blocks w_ex) in
  wf_ty t_ex /\ box_at w t_ex 4096 v_ex /\
  place_ok (without (w_blocks w) [4096]) t_ex 8200 (vsize t_ex v_ex) /\ apart 4096 (vsize t_ex v_ex) 8200 (vsize t_ex v_ex).
Proof.
  cbv zeta. split; [apply t_ex_wf|]. split; [split|split].
  - pose proof v_ex_at as (H1 & (H2 & H3 & H4 & H5) & H6). split; [exact H1|]. split; [|exact H6]. repeat split; auto.
    eapply live_incl; [exact H5|]. cbn [set_blocks w_blocks]. apply incl_tl, incl_refl.
  - right. rewrite w_ex_blocks. left. vm_compute. reflexivity.
  - unfold place_ok. conc. right. exists (mkB 8192 60 8 true). split; [|conc]. cbn [set_blocks w_blocks]. rewrite w_ex_blocks. left. reflexivity.
  - right; right; left. conc.
Qed.

(** C12. REFUTED. Using an Owned as an initializer copies size * size_of::<T>() bytes. When the Rust
    type T is larger than one byte and the destination allocation has exactly the size of the
    object, this is an out-of-bounds access for every object; when T has size zero (tuples) nothing
    is copied. *)
Theorem C12_owned_moves_refuted : forall t w a v dst al hp l,
  wf_ty t -> wf_blocks (w_blocks w) -> 1 < head_size t -> obj_at w t a v ->
  In (mkB dst (vsize t v) al hp) (w_blocks w) -> calc_layout t a w = Ok l w ->
  exists u, initialize t (IOwned a v) dst l w = UB u.
Proof.
  intros t w a v dst al hp l Hwf Hbl Hh Ho Hb Hl. rewrite (calc_layout_ok t w a v Hwf Ho) in Hl. injection Hl as <-.
  assert (E : initialize t (IOwned a v) dst (sp_lay t (vshape v)) w =
    copy_nonoverlapping a dst (lay_size (sp_lay t (vshape v)) * head_size t) (head_align t) w) by (destruct t; reflexivity).
  rewrite E, (lay_size_sp t v (proj1 Ho)). unfold copy_nonoverlapping, bind at 1.
  destruct (check_ref a (vsize t v * head_size t) (head_align t) w) as [[] w1|w1|u] eqn:E1; [|unfold check_ref in E1|eauto].
  - assert (w1 = w) as ->. { unfold check_ref in E1. repeat match type of E1 with (if ?b then _ else _) = _ => destruct b; try discriminate end. congruence. }
    unfold bind. unfold check_ref. destruct (dst =? 0); [eauto|]. destruct (negb (dst mod _ =? 0)); [eauto|].
    destruct (inb w dst (vsize t v * head_size t)) eqn:Ei; cbn [negb]; [|eauto]. exfalso. apply inb_live in Ei.
    destruct Hbl as [Hb1 Hb2]. pose proof (Hb1 _ Hb) as (B1 & B2 & B3). cbn [b_base b_size] in *.
    destruct Ei as [Ei|(c & Hc & L1 & L2)]; [nia|]. pose proof (Hb1 _ Hc) as (C1 & C2 & C3).
    destruct (FOP_in _ _ _ _ Hb2 Hb Hc) as [<-|Hd]; cbn [b_base b_size] in *; [nia|].
    unfold blocks_apart in Hd. cbn [b_base b_size] in Hd. nia.
  - repeat match type of E1 with (if ?b then _ else _) = _ => destruct b; try discriminate end.
Qed.
Theorem C12_owned_tuple_refuted : forall t w a v dst l,
  wf_ty t -> head_size t = 0 -> obj_at w t a v -> dst <> 0 -> dst mod sp_align t = 0 -> calc_layout t a w = Ok l w ->
  exists w', initialize t (IOwned a v) dst l w = Ok tt w' /\ forall x, w_mem w' x = w_mem w x.
Proof.
  intros t w a v dst l Hwf Hh Ho H0 Hm Hl. rewrite (calc_layout_ok t w a v Hwf Ho) in Hl. injection Hl as <-.
  assert (E : initialize t (IOwned a v) dst (sp_lay t (vshape v)) w =
    copy_nonoverlapping a dst (lay_size (sp_lay t (vshape v)) * head_size t) (head_align t) w) by (destruct t; reflexivity).
  rewrite E, Hh, N.mul_0_r. pose proof Ho as (_ & (P0 & Pm & _) & _).
  assert (Hmod : forall x, x mod sp_align t = 0 -> x mod head_align t = 0).
  { intros x Hx. eapply pow2_mod; [apply head_align_pow2, Hwf|apply sp_align_pow2, Hwf|apply head_align_le, Hwf|exact Hx]. }
  eexists. split; [apply copy_ok; auto; left; reflexivity|]. intros x. cbn [w_mem set_mem]. apply move_out. lia.
Qed.
(** The part of C12 that does hold: Rust types of size one (Array<_, u8>, Str<u8>, ...). *)
Theorem C12_owned_moves_partial : forall t w a v dst,
  wf_ty t -> head_size t = 1 -> obj_at w t a v ->
  place_ok (w_blocks w) t dst (vsize t v) -> apart a (vsize t v) dst (vsize t v) ->
  exists l w', init_layout t (IOwned a v) w = Ok (Some l) w /\ initialize t (IOwned a v) dst l w = Ok tt w' /\
    view t dst w' = Ok v w' /\ w_log w' = w_log w /\
    forall x, x < dst \/ dst + vsize t v <= x -> w_mem w' x = w_mem w x.
Proof.
  intros t w a v dst Hwf Hh Ho Hp Ha. pose proof Ho as (Hv & Hpa & Hr).
  assert (Hbs : ibases t (IOwned a v) = []) by (destruct t; reflexivity).
  assert (R : init_ready w t (IOwned a v) dst (isize t (IOwned a v))).
  { split; [destruct t; split; auto|]. split; [rewrite Hbs; constructor|]. destruct t; cbn [isrc ibases iboxes map]; rewrite without_nil; repeat split; auto; apply Hpa. }
  assert (Hz : ilens t (IOwned a v) = true) by (destruct t; reflexivity).
  assert (Hs : isize t (IOwned a v) = vsize t v) by (destruct t; reflexivity).
  assert (Hsh : ishape t (IOwned a v) = vshape v) by (destruct t; reflexivity).
  assert (Hi : irun t (IOwned a v) = ([], Some v)) by (destruct t; reflexivity).
  pose proof (init_layout_ok t w _ dst _ Hwf R Hz) as El. rewrite Hs, Hsh in El. pose proof (obj_W _ _ _ _ Ho) as HW. apply N.ltb_lt in HW. rewrite HW in El.
  pose proof (fun P => initialize_ok t w _ dst Hwf R P Hz) as HB. rewrite Hbs, without_nil, Hs in HB. specialize (HB Hp). unfold build_res in HB.
  rewrite Hi, Hbs, Hs, Hsh in HB. cbn [fst snd] in HB. destruct HB as (w' & E & U & Hr').
  exists (sp_lay t (vshape v)), w'. split; [exact El|]. split; [exact E|].
  pose proof (upd_blocks _ _ _ _ _ _ U) as Ub. rewrite without_nil in Ub.
  split; [apply view_ok; [exact Hwf|]; split; [exact Hv|]; split; [rewrite Ub; exact Hp|exact Hr']|].
  split; [rewrite (upd_log_eq _ _ _ _ _ _ U); apply app_nil_r|apply U].
Qed.
(** Concrete: an Owned<S> of the example struct (size_of 16) moved into a 52-byte block. *)
Example C12_refuted_meets :
  let w := set_blocks w_ex (mkB 8192 52 8 true :: w_blocks w_ex) in
  1 < head_size t_ex /\ In (mkB 8192 (vsize t_ex v_ex) 8 true) (w_blocks w) /\
  match init_layout t_ex (IOwned 4096 v_ex) w with
  | Ok (Some l) _ => initialize t_ex (IOwned 4096 v_ex) 8192 l w = UB UOob
  | _ => False
  end.
Proof. cbv zeta. split; [reflexivity|]. split; [left; vm_compute; reflexivity|vm_compute; reflexivity]. Qed.
(** Concrete: if the source and destination happen to be surrounded by live memory, the bytes after
    the destination are silently overwritten. An Array<u8, u16> of one element (3 bytes) is moved; byte 3
    after the start of the destination, which is not part of the object, changes. *)
Example C12_refuted_overwrite :
  let t := TArray u8 LU16 in
  let w := set_mem (w_room 64) (wr (w_mem (w_room 64)) 4096 (by_ [1;0;7;9;9;9;0;0;5;5;5;5;5;5;5;5])) in
  obj_at w t 4096 (VArr [by_ [7]]) /\
  exists l w', init_layout t (IOwned 4096 (VArr [by_ [7]])) w = Ok (Some l) w /\ lay_size l = 3 /\
    initialize t (IOwned 4096 (VArr [by_ [7]])) 4104 l w = Ok tt w' /\
    w_mem w (4104 + 3) = By 5 /\ w_mem w' (4104 + 3) = By 9.
Proof.
  cbv zeta. split.
  - split; [cbn; conc|]. split; [|cbn [repr]; conc]. unfold place_ok. conc. right. eexists. split; [left; reflexivity|]. conc.
  - eexists _, _. split; [vm_compute; reflexivity|]. split; [reflexivity|].
    split; [unfold initialize, copy_nonoverlapping, bind, check_ref; cbn [lay_size head_size head_align];
            match goal with |- context [if ?b then _ else _] => change b with false; cbv iota end; reflexivity|].
    split; vm_compute; reflexivity.
Qed.

(** C13. REFUTED. Owned::leak runs every destructor of the object it returns a reference to. *)
Theorem C13_leak_refuted : forall t w a v,
  wf_ty t -> obj_at w t a v ->
  exists w', owned_leak t a w = Ok a w' /\ w_log w' = w_log w ++ map EDrop (vdrops t v).
Proof.
  intros t w a v Hwf Ho. unfold owned_leak. step (deref_ok t w a v Hwf Ho). step (owned_drop_ok t w a v Hwf Ho). eexists. split; reflexivity.
Qed.
Example C13_refuted_meets : obj_at w_ex t_ex 4096 v_ex /\ vdrops t_ex v_ex <> [].
Proof. split; [apply v_ex_at|discriminate]. Qed.
(** It is harmless only for objects without destructors. *)
Theorem C13_leak_partial : forall t w a v,
  wf_ty t -> obj_at w t a v -> vdrops t v = [] ->
  exists w', owned_leak t a w = Ok a w' /\ w_log w' = w_log w /\ view t a w' = Ok v w'.
Proof.
  intros t w a v Hwf Ho Hd. destruct (C13_leak_refuted t w a v Hwf Ho) as (w' & E & El). exists w'. split; [exact E|].
  rewrite Hd in El. cbn in El. rewrite app_nil_r in El. split; [exact El|].
  unfold owned_leak in E. rewrite (bind_ok _ _ _ _ _ (deref_ok t w a v Hwf Ho)), (bind_ok _ _ _ _ _ (owned_drop_ok t w a v Hwf Ho)) in E.
  injection E as <-. apply view_ok; [exact Hwf|]. apply obj_log, Ho.
Qed.
Example C13_partial_meets : wf_ty t_str /\ obj_at w_str t_str 4096 v_str /\ vdrops t_str v_str = [].
Proof. split; [apply u8_ok|]. split; [apply w_str_at|reflexivity]. Qed.

(** C14. Dropping an Owned runs each destructor once and frees nothing; into_raw / from_raw are the
    identity without effects. *)
Theorem C14_owned_drop : forall t w a v,
  wf_ty t -> obj_at w t a v ->
  exists w', owned_drop t a w = Ok tt w' /\ w_log w' = w_log w ++ map EDrop (vdrops t v) /\
    w_blocks w' = w_blocks w /\ forall x, w_mem w' x = w_mem w x.
Proof. intros t w a v Hwf Ho. rewrite (owned_drop_ok t w a v Hwf Ho). eexists. split; [reflexivity|]. repeat split. Qed.
Theorem C14_raw_round_trip : forall a w,
  (r <- owned_into_raw a ;; owned_from_raw r) w = Ok a w /\ (r <- vbox_into_raw a ;; vbox_from_raw r) w = Ok a w.
Proof. intros. split; reflexivity. Qed.
Example C14_meets : wf_ty t_ex /\ obj_at w_ex t_ex 4096 v_ex.
Proof. split; [apply t_ex_wf|apply v_ex_at]. Qed.

(** C27. REFUTED. If the allocator fails, VBox::new has undefined behaviour (a null NonNull, which
    is then written through): for every type and every initializer of an object that has at least
    one byte and is not too large. A failure is the answer null, or any answer that is not usable
    storage. *)
Theorem C27_vbox_new_oom_refuted : forall t w i,
  wf_ty t -> usable w t i -> fits t i = true -> 0 < isize t i ->
  w_alloc w (w_tick w) (isize t i) (valign t) = None ->
  vbox_new t i w = UB UNull.
Proof.
  intros t w i Hwf Hu Hf Hs Ha. rewrite (valign_sp t Hwf) in Ha.
  destruct (alloc_cases (isize t i) (sp_align t) w Hs) as [(q & _ & H & _)|[_ H]]; [congruence|].
  unfold vbox_new. step (on_unwind_ok _ (drop_init t i) _ _ _ (init_layout_ok t w i 0 0 Hwf Hu (fits_lens _ _ Hf))). pose proof (fits_W _ _ Hf) as HW. apply N.ltb_lt in HW. rewrite HW.
  rewrite (lay_size_ishape t i (proj1 Hu)), (valign_sp t Hwf), fits_fsa by (auto; apply fits_lens, Hf). rewrite Hf. step H. reflexivity.
Qed.
(** What does hold: VBox::new is safe exactly when the allocator answers (and the object has a
    byte); it panics without side effects other than dropping the initializer if the object is too
    large. *)
Theorem C27_vbox_new_partial : forall t w i,
  wf_ty t -> wf_blocks (w_blocks w) -> usable w t i -> 0 < isize t i ->
  (forall p, w_alloc w (w_tick w) (isize t i) (valign t) = Some p -> valid_answer (w_blocks w) p (isize t i) (valign t) = true) ->
  w_alloc w (w_tick w) (isize t i) (valign t) <> None ->
  match vbox_new t i w with
  | Ok p w' => exists v, ival t i = Some v /\ box_at w' t p v /\ untouched w w' (ibases t i)
  | Panic w' => (fits t i = false \/ ival t i = None) /\ untouched w w' (ibases t i)
  | UB _ => False
  end.
Proof.
  intros t w i Hwf Hbl Hu Hs Ha Hn. rewrite (valign_sp t Hwf) in *.
  destruct (vbox_new t i w) as [p w'|w'|u] eqn:E.
  - destruct (vbox_new_ok t w i p w' Hwf Hbl Hu E) as (v & H1 & H2 & _ & _ & _ & _ & _ & _ & H3). eauto.
  - destruct (vbox_new_panic t w i w' Hwf Hbl Hu E) as (_ & H1 & [(H2 & _)|(_ & H2 & _)]); auto.
  - destruct (vbox_new_cases t w i Hwf Hbl Hu) as [(_ & w1 & E1 & _)|[(_ & E0 & _)|[(_ & _ & H & _)|(_ & _ & p & w1 & _ & _ & _ & H)]]].
    + congruence.
    + lia.
    + destruct (w_alloc w (w_tick w) (isize t i) (sp_align t)) as [p|]; [|congruence]. pose proof (H p eq_refl) as H'. rewrite (Ha p eq_refl) in H'. discriminate.
    + destruct (snd (irun t i)); destruct H as (w2 & E2 & _); congruence.
Qed.
Example C27_refuted_meets : wf_ty t_ex /\ usable w_oom t_ex i_ex /\ fits t_ex i_ex = true /\ 0 < isize t_ex i_ex /\
  w_alloc w_oom (w_tick w_oom) (isize t_ex i_ex) (valign t_ex) = None /\ vbox_new t_ex i_ex w_oom = UB UNull.
Proof.
  split; [apply t_ex_wf|]. split; [|split; [reflexivity|split; [reflexivity|split; [reflexivity|vm_compute; reflexivity]]]].
  split; [|split]; cbn; conc. intros i v H. injection H as <-. reflexivity.
Qed.
Example C27_partial_meets : 0 < isize t_ex i_ex /\
  (forall p, w_alloc w_start (w_tick w_start) (isize t_ex i_ex) (valign t_ex) = Some p ->
     valid_answer (w_blocks w_start) p (isize t_ex i_ex) (valign t_ex) = true) /\
  w_alloc w_start (w_tick w_start) (isize t_ex i_ex) (valign t_ex) <> None.
Proof. split; [reflexivity|]. split; [|discriminate]. intros p H. injection H as <-. reflexivity. Qed.

(** C28, VBox. REFUTED. VBox::new of an object without bytes asks the global allocator for zero
    bytes, which is undefined behaviour. *)
Theorem C28_vbox_zero_size_refuted : forall t w i,
  wf_ty t -> usable w t i -> ilens t i = true -> isize t i = 0 -> vbox_new t i w = UB UZeroAlloc.
Proof.
  intros t w i Hwf Hu Hz Hs. unfold vbox_new. step (on_unwind_ok _ (drop_init t i) _ _ _ (init_layout_ok t w i 0 0 Hwf Hu Hz)). rewrite Hs. change (0 <? W) with true. cbv iota.
  rewrite (lay_size_ishape t i (proj1 Hu)), (valign_sp t Hwf), fsa_ok, Hs by auto.
  destruct (N.leb_spec (0 + (sp_align t - 1)) ISIZE_MAX) as [_|H].
  - unfold bind, alloc. rewrite N.eqb_refl. reflexivity.
  - pose proof (pow2_le _ (sp_align_pow2 t Hwf)) as HA. unfold ISIZE_MAX in H. change (2^63) with 9223372036854775808 in H. change (2^29) with 536870912 in HA. lia.
Qed.
Example C28_refuted_meets : let t := TFixed (mkF 0 1 false (fun v => Some v)) in
  wf_ty t /\ usable w_start t (IFixed []) /\ ilens t (IFixed []) = true /\ isize t (IFixed []) = 0 /\ vbox_new t (IFixed []) w_start = UB UZeroAlloc.
Proof.
  cbv zeta. split; [cbn; unfold fty_ok; cbn; conc; intros v v' H; injection H as <-; auto|].
  split; [split; [|split]; cbn; conc|]. repeat split.
Qed.
(** Objects with at least one byte never cause a zero-size request. *)
Theorem C28_vbox_partial : forall t w i,
  wf_ty t -> wf_blocks (w_blocks w) -> usable w t i -> 0 < isize t i -> vbox_new t i w <> UB UZeroAlloc.
Proof.
  intros t w i Hwf Hbl Hu Hs E.
  destruct (vbox_new_cases t w i Hwf Hbl Hu) as [(_ & w1 & E1 & _)|[(_ & E0 & _)|[(_ & _ & H & E1)|(_ & _ & p & w1 & _ & _ & _ & H)]]]; try congruence; try lia.
  destruct (snd (irun t i)); destruct H as (w2 & E2 & _); congruence.
Qed.

(** C35. Construction that panics: among the destructors run, every value the initializer owned
    appears at most once (the rest, [leaked], is never dropped), nothing else appears, and every box
    the initializer owned is freed exactly once, nothing else. Construction that succeeds drops
    nothing, and the new object owns what the initializer owned. *)
Theorem C35_no_double_drop : forall t w i dst l,
  wf_ty t -> init_ready w t i dst (isize t i) -> place_ok (without (w_blocks w) (ibases t i)) t dst (isize t i) ->
  init_layout t i w = Ok (Some l) w ->
  exists w' evs,
    w_log w' = w_log w ++ evs /\ Permutation (frees_of evs) (iboxes t i) /\
    match ival t i with
    | Some v => initialize t i dst l w = Ok tt w' /\ drops_of evs = [] /\
        exists fresh, Permutation (vdrops t v) (iowned t i ++ fresh)
    | None => initialize t i dst l w = Panic w' /\
        exists leaked, Permutation (drops_of evs ++ leaked) (iowned t i)
    end.
Proof.
  intros t w i dst l Hwf Hr Hp Hl. pose proof (init_layout_lens t w i dst _ l w Hwf Hr Hl) as Hz.
  destruct (init_layout_some t w i dst _ l Hwf Hr Hl) as [-> _].
  pose proof (initialize_ok t w i dst Hwf Hr Hp Hz) as HB. unfold build_res in HB.
  pose proof (proj1 irun_own_all t i (proj1 Hr)) as (O1 & O2). rewrite (proj1 irun_ival) in *.
  destruct (ival t i) as [v|]; [destruct HB as (w' & E & U & _)|destruct HB as (w' & E & U)];
    exists w', (fst (irun t i)); (split; [apply U|]); (split; [exact O1|]); (split; [exact E|]); exact O2.
Qed.
(** The initializer is dropped unused (VBox::new of an object that is too large): every value it
    owned is dropped exactly once, every box freed exactly once, in order. *)
Theorem C35_unused_initializer : forall t w i,
  wf_ty t -> usable w t i ->
  exists w' evs, drop_init t i w = Ok tt w' /\ w_log w' = w_log w ++ evs /\
    drops_of evs = iowned t i /\ frees_of evs = iboxes t i /\ forall x, w_mem w' x = w_mem w x.
Proof.
  intros t w i Hwf Hu. destruct (usable_drop t w i Hwf Hu) as (w' & E & U).
  exists w', (idrop t i). split; [exact E|]. split; [apply U|]. destruct (proj1 idrop_own_all t i (proj1 Hu)) as [H1 H2].
  split; [exact H1|]. split; [exact H2|]. intros x. apply (upd_mem _ _ _ _ _ _ U). lia.
Qed.
(** A tuple whose second component panics after the first one was built, with owned values before
    and after. *)
Definition t_tup3 : vty := TRec KTuple 0 1 (FVar (TArray f_box LU8) (FVar (TArray u8 LU8) (FVar (TFixed f_box) FNil))).
Definition i_tup3 : init := IRec [ISized 1 (AMoveFrom [h1]); ISized 2 (AFillSeq (fun i => if i =? 0 then Some (by_ [1]) else None)); IFixed h2].
Example C35_meets : wf_ty t_tup3 /\ init_ready (w_room 64) t_tup3 i_tup3 4096 (isize t_tup3 i_tup3) /\
  place_ok (without (w_blocks (w_room 64)) (ibases t_tup3 i_tup3)) t_tup3 4096 (isize t_tup3 i_tup3) /\
  ival t_tup3 i_tup3 = None /\ iowned t_tup3 i_tup3 = [h1; h2] /\
  match initialize t_tup3 i_tup3 4096 (sp_lay t_tup3 (ishape t_tup3 i_tup3)) (w_room 64) with
  | Panic w => drops_of (w_log w) = [h2] | _ => False end.
Proof.
  split; [cbn [wf_ty wf_flds t_tup3]; unfold header_ok; cbn [head_fields]; conc; try apply box_ok; try apply u8_ok; try discriminate; try in_tac; exact I|].
  split; [split; [|split]; cbn; conc|].
  - intros i v. destruct (i =? 0); [|discriminate]. intros H. injection H as <-. reflexivity.
  - split; [|split; [reflexivity|split; [reflexivity|vm_compute; reflexivity]]].
    unfold place_ok. conc. right. eexists. split; [left; reflexivity|]. conc.
Qed.

(** C44. VBox::clone: a second box at another address holding the leafwise clone, the original as it
    was; every leaf was cloned exactly once, in order. *)
Theorem C44_vbox_clone : forall t w a v,
  wf_ty t -> clonable t -> wf_blocks (w_blocks w) -> box_at w t a v ->
  match vbox_clone t a w with
  | Ok p w' => p <> a /\ (exists v', clone_val t v = Some v' /\ box_at w' t p v') /\ box_at w' t a v /\
      wf_blocks (w_blocks w') /\ w_blocks w' = mkB p (vsize t v) (valign t) true :: w_blocks w /\
      w_log w' = w_log w ++ EAlloc p (vsize t v) (valign t) :: map EClone (vleaves v)
  | Panic w' => box_at w' t a v /\ wf_blocks (w_blocks w') /\
      ((ISIZE_MAX < vsize t v + (valign t - 1) /\ w_blocks w' = w_blocks w /\ w_log w' = w_log w) \/
       (* the clone of leaf number k panicked: the clones made before and the new storage are leaked *)
       (clone_val t v = None /\ exists p k, (k < length (vleaves v))%nat /\ first_none (leaf_clones t v) k /\
          w_blocks w' = mkB p (vsize t v) (valign t) true :: w_blocks w /\
          w_log w' = w_log w ++ EAlloc p (vsize t v) (valign t) :: map EClone (firstn (S k) (vleaves v))))
  | UB u => u = UNull /\ forall p, w_alloc w (w_tick w) (vsize t v) (valign t) = Some p -> valid_answer (w_blocks w) p (vsize t v) (valign t) = false
  end.
Proof.
  intros t w a v Hwf Hc Hbl Hb. pose proof Hb as [Ho Hin]. unfold vbox_clone.
  step (deref_ok t w a v Hwf Ho).
  destruct (vclone_ok2 t w a v Hwf Hc Ho) as (i & Ec & Hi & (N1 & N2 & N3) & Hsh & Hiv & Hrun & Hdr & Hpan).
  step Ec. rewrite (valign_sp t Hwf).
  assert (Hbs : ibases t i = []) by (unfold ibases; rewrite N1; reflexivity).
  assert (Hs : isize t i = vsize t v) by (unfold isize, vsize; now rewrite Hsh).
  assert (Hu : usable w t i).
  { split; [exact Hi|]. split; [rewrite Hbs; constructor|]. apply N3. rewrite Hbs, without_nil.
    destruct Ho as (_ & (_ & _ & _ & Pl) & _). split; [exact Pl|]. split; [auto|]. unfold apart. auto. }
  assert (Hunt : forall w', untouched w w' (ibases t i) -> box_at w' t a v).
  { intros w' U. eapply box_env; [exact Hwf|exact Hb|]. intros b Hb1 _. apply U; [exact Hb1|]. rewrite Hbs. intros []. }
  rewrite vbox_new_strip. destruct (vbox_new t i w) as [p w'|w'|u] eqn:E.
  - destruct (vbox_new_ok t w i p w' Hwf Hbl Hu E) as (v' & H1 & H2 & H3 & H4 & H5 & H6 & H7 & H8 & H9).
    rewrite Hiv in H1. split.
    + intros ->. destruct (fresh_apart _ _ _ _ H6) as (_ & _ & _ & Fb & _). specialize (Fb _ Hin). cbn [box_block b_base b_size] in Fb. lia.
    + split; [eauto|]. split; [auto|]. split; [exact H5|]. rewrite Hbs, without_nil, Hs in H7. split; [exact H7|].
      rewrite H8, Hs. rewrite Hrun by congruence. reflexivity.
  - destruct (vbox_new_panic t w i w' Hwf Hbl Hu E) as (H0 & H1 & H2). split; [auto|]. split; [exact H0|]. rewrite Hbs, without_nil, Hs in H2.
    destruct H2 as [(H2 & HL & HB)|(_ & H2 & p & HL & HB & _)].
    2:{ right. split; [congruence|]. destruct Hpan as (k & [Hk1 Hk2] & Hk3); [congruence|]. exists p, k. rewrite Hk3 in HL. auto 6. }
    left. rewrite Hdr, app_nil_r in HL. split; [|auto]. unfold fits in H2. rewrite (proj1 clonable_lens t i Hc), Hs in H2. cbn [andb] in H2. now apply N.leb_gt in H2.
  - pose proof (proj1 Hbl _ Hin) as (_ & Hpos & _). cbn [box_block b_size] in Hpos.
    destruct (vbox_new_cases t w i Hwf Hbl Hu) as [(_ & w1 & E1 & _)|[(_ & E0 & _)|[(_ & _ & H & E1)|(_ & _ & p & w1 & _ & _ & _ & H)]]].
    + congruence.
    + lia.
    + rewrite Hs in H. split; [congruence|exact H].
    + destruct (snd (irun t i)); destruct H as (w2 & E2 & _); congruence.
Qed.
(** Mutating or dropping one box leaves every other box as it is. *)
Lemma other_box w w' t a v b : wf_ty t -> wf_blocks (w_blocks w) -> box_at w t a v ->
  In b (w_blocks w) -> b_base b <> a ->
  same_outside (w_mem w) (w_mem w') (b_base b) (b_size b) -> (forall c, In c (w_blocks w) -> b_base c <> b_base b -> In c (w_blocks w')) ->
  box_at w' t a v.
Proof.
  intros Hwf Hbl Hb Hin Hne Hm Hbs. eapply box_env; [exact Hwf|exact Hb|]. intros c Hc Ec. split; [apply Hbs; [exact Hc|congruence]|].
  intros x Hx. apply Hm. destruct Hbl as [Hb1 Hb2]. destruct (FOP_in _ _ _ _ Hb2 Hc Hin) as [E|[Hd|Hd]]; [congruence| |]; unfold blocks_apart in Hd; lia.
Qed.
Theorem C44_boxes_independent : forall t w a v t2 p v2,
  wf_ty t -> wf_ty t2 -> wf_blocks (w_blocks w) -> box_at w t a v -> box_at w t2 p v2 -> p <> a ->
  (forall q f new w', mut_leaf t2 q = Some f -> len new = f_size f ->
     assign t2 p q new w = Ok tt w' -> view t a w' = Ok v w' /\ box_at w' t a v) /\
  (forall w', vbox_drop t2 p w = Ok tt w' -> view t a w' = Ok v w' /\ box_at w' t a v).
Proof.
  intros t w a v t2 p v2 Hwf Hwf2 Hbl Hb Hb2 Hne. pose proof Hb2 as [Ho2 Hin2].
  assert (G : forall w', box_at w' t a v -> view t a w' = Ok v w' /\ box_at w' t a v) by (intros w' H; split; [apply view_ok; [exact Hwf|apply H]|exact H]).
  split.
  - intros q f new w' Hm Hl E. apply G. pose proof (assign_ok t2 w p v2 q f new Hwf2 Ho2 Hm Hl) as HA.
    destruct (leaf v2 q) as [old|]; [|congruence]. destruct HA as (w1 & o & E1 & Hob & U & _). assert (w' = w1) as -> by congruence.
    eapply (other_box w _ t a v (box_block t2 p v2)); auto.
    + intros x Hx. cbn [box_block b_base b_size] in Hx. apply (upd_mem _ _ _ _ _ _ U). lia.
    + intros c Hc _. rewrite (upd_blocks _ _ _ _ _ _ U), without_nil. exact Hc.
  - intros w' E. apply G. rewrite (vbox_drop_ok t2 w p v2 Hwf2 Ho2 Hin2) in E. injection E as <-.
    eapply (other_box w _ t a v (box_block t2 p v2)); auto.
    + intros x _. reflexivity.
    + intros c Hc Hne2. cbn [w_blocks add_log set_blocks]. apply in_without. split; [exact Hc|]. intros [E|[]]. apply Hne2. symmetry. exact E.
Qed.
Definition w_tupb : world :=
  match vbox_new t_tup (IRec [ISized 2 (AMoveFrom [h2; h3]); IFixed (by_ [1;2;3;4])]) w_start with Ok _ w => w | _ => w_start end.
Lemma w_tupb_blocks : w_blocks w_tupb = [mkB 4096 28 8 true].
Proof. vm_compute. reflexivity. Qed.
Lemma w_tupb_at : box_at w_tupb t_tup 4096 v_tup.
Proof.
  split; [|rewrite w_tupb_blocks; left; reflexivity].
  split; [cbn; conc|]. split; [|cbn [repr repr_flds t_tup v_tup]; conc]. unfold place_ok. rewrite w_tupb_blocks. conc. right. eexists.
  split; [left; reflexivity|]. conc.
Qed.
Example C44_meets : wf_ty t_tup /\ clonable t_tup /\ wf_blocks (w_blocks w_tupb) /\ box_at w_tupb t_tup 4096 v_tup /\
  match vbox_clone t_tup 4096 w_tupb with Ok p _ => p = 8192 | _ => False end.
Proof.
  split; [apply t_tup_wf|]. split; [cbn; conc|]. split; [|split; [apply w_tupb_at|vm_compute; reflexivity]].
  rewrite w_tupb_blocks. split; [|repeat constructor]. intros b [<-|[]]. cbn. conc.
Qed.

(** C46. Owned::new_in: the object is inside one block of arena storage of its size, aligned, and
    reads back as described; no request goes to the global allocator; everything else is untouched;
    dropping the Owned later runs each destructor once and leaves the storage. When it panics, the
    initializer has been dropped (or has itself panicked) and no heap block was made. It never has
    undefined behaviour, whatever the arena answers. *)
Theorem C46_owned_new_in : forall t w i,
  wf_ty t -> wf_blocks (w_blocks w) -> usable w t i ->
  match owned_new_in t i w with
  | Ok p w' => exists v, ival t i = Some v /\ fits t i = true /\ view t p w' = Ok v w' /\
      p <> 0 /\ p mod valign t = 0 /\ (0 < vsize t v -> In (mkB p (vsize t v) (valign t) false) (w_blocks w')) /\
      untouched w w' (ibases t i) /\ w_log w' = w_log w ++ fst (irun t i) /\
      exists w'', owned_drop t p w' = Ok tt w'' /\ w_log w'' = w_log w' ++ map EDrop (vdrops t v) /\ w_blocks w'' = w_blocks w'
  | Panic w' => untouched w w' (ibases t i) /\
      (w_log w' = w_log w ++ idrop t i \/ (fits t i = true /\ ival t i = None /\ w_log w' = w_log w ++ fst (irun t i))) /\
      (forall b, In b (w_blocks w') -> b_heap b = true -> In b (w_blocks w) /\ ~ In (b_base b) (ibases t i))
  | UB _ => False
  end.
Proof.
  intros t w i Hwf Hbl Hu. pose proof (owned_new_in_cases t w i Hwf Hbl Hu) as H.
  destruct (owned_new_in t i w) as [p w'|w'|u]; [|apply H|exact H].
  destruct H as (v & H1 & Ho & H3 & H4 & H5 & H6 & H7). exists v. split; [exact H1|]. split; [apply H7|]. split; [now apply view_ok|].
  pose proof Ho as (_ & (P0 & Pm & _) & _). rewrite (valign_sp t Hwf). split; [exact P0|]. split; [exact Pm|]. split.
  - intros Hpos. rewrite H5, <- H3. destruct (N.eqb_spec (vsize t v) 0) as [E|_]; [lia|]. left. reflexivity.
  - split; [exact (proj1 H7)|]. split; [exact H6|]. rewrite (owned_drop_ok t w' p v Hwf Ho). eexists. repeat split.
Qed.
Example C46_meets : wf_ty t_ex /\ wf_blocks (w_blocks w_start) /\ usable w_start t_ex i_ex /\
  match owned_new_in t_ex i_ex w_start with Ok p _ => p = 4096 | _ => False end.
Proof. split; [apply t_ex_wf|]. split; [apply w_start_ok|]. split; [apply i_ex_usable|vm_compute; reflexivity]. Qed.
