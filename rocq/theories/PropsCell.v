(** PropsCell.v - C65: what may change the layout of a live object. *)
From Verif Require Import PropsProgram PropsAccount PropsPin PropsUnpin Examples.
From Verif Require Import CellSpec CellProofs.

(** Cell::set on any leaf a shared reference leads to, layout controllers included: the old value is dropped, the bytes of
    the leaf (inside the object) change, nothing else does. The layout of the object is what it was exactly if the
    object, with the new value in place of the old one, still is a value of its type (every array has the length its
    length expression says); and then the object reads as that value. *)
Theorem C65_cell_set_exact : forall t w a v p f new,
  wf_ty t -> obj_at w t a v -> ref_leaf t p = Some f -> len new = f_size f ->
  match leaf v p with
  | None => cell_set t a p new w = Panic w
  | Some x => exists w' b l, cell_set t a p new w = Ok tt w' /\ a <= b /\ b + f_size f <= a + vsize t v /\
      rd (w_mem w) b (f_size f) = x /\ rd (w_mem w') b (f_size f) = new /\ same_outside (w_mem w) (w_mem w') b (f_size f) /\
      w_blocks w' = w_blocks w /\ w_log w' = w_log w ++ drop_events f [x] /\
      calc_layout t a w = Ok l w /\ (calc_layout t a w' = Ok l w' <-> vok t (put v p new)) /\
      (vok t (put v p new) -> view t a w' = Ok (put v p new) w')
  end.
Proof.
  intros t w a v p f new Hwf Ho Hm Hn. pose proof (cell_set_ok t w a v p f new Hwf Ho Hm Hn) as H.
  destruct (leaf v p) as [x|]; [|exact H]. destruct H as (w' & o & E & H1 & H2 & H3 & _ & _ & H4 & H5 & H6 & H7 & H8).
  destruct (layout_iff t w a v w' _ Hwf Ho H3 H6 H7 H8) as [L1 L2].
  exists w', (a + o), (sp_lay t (vshape v)). split; [exact E|]. split; [lia|]. split; [lia|]. split; [exact H5|].
  split; [rewrite H2, <- Hn; apply rd_wr_same|]. split; [rewrite H2; intros z Hz; apply wr_out; lia|]. split; [exact H3|]. split; [exact H4|].
  split; [exact (calc_layout_ok t w a v Hwf Ho)|]. split; [exact L1|]. intros Hk. exact (view_ok t w' a _ Hwf (L2 Hk)).
Qed.
(** On a leaf that muts() leads to as well (everything but the layout controllers) it is the assignment through muts(), on
    every object a program holds: so all that is proved about programs holds if such values have interior
    mutability. *)
Theorem C65_cell_is_assign : forall w sl σ n pl q new t v f,
  reach w sl σ n -> at_place σ pl = Some (t, v) -> mut_leaf t q = Some f -> len new = f_size f ->
  exec_cell pl q new (w, sl) = exec (OAssign pl q new) (w, sl).
Proof.
  intros w sl σ n pl q new t v f HR Hp Hm Hn. pose proof (reach_inv _ _ _ _ HR) as HI.
  destruct (resolve_ok w sl σ n pl t v HI Hp) as (a & s0 & v0 & E & Hwf & Ho & _).
  unfold exec_cell. cbn [exec fst snd]. unfold call. step E. step E. cbn [fst snd]. now rewrite (cell_is_assign t w a v q f new Hwf Ho Hm Hn).
Qed.
(** Only the controllers matter: a leaf that muts() leads to never changes the layout. *)
Theorem C65_only_controllers : forall t v p f x new,
  vok t v -> mut_leaf t p = Some f -> leaf v p = Some x -> len new = f_size f -> vok t (put v p new).
Proof. intros t v p f x new Hv Hm Hl Hn. eapply put_vok; eauto. Qed.

(** mem::swap of two objects of a type with a tail (which takes a hand-written impl of Unpin) exchanges the headers. The
    layout of each is what it was exactly if the header it gets suits its tail: the length of an Array is the same; the
    fields of a struct make a value of its type. Then it reads as its tail with the header of the other. *)
Theorem C65_swap_headers_exact : forall t w a v a' v',
  wf_ty t -> obj_at w t a v -> obj_at w t a' v' -> apart a (vsize t v) a' (vsize t v') ->
  exists w' l l', swap_objects t a a' w = Ok tt w' /\ w_blocks w' = w_blocks w /\ w_log w' = w_log w /\
    (forall x, ~ (a <= x < a + head_size t) -> ~ (a' <= x < a' + head_size t) -> w_mem w' x = w_mem w x) /\
    calc_layout t a w = Ok l w /\ calc_layout t a' w = Ok l' w /\
    (calc_layout t a w' = Ok l w' <-> header_suits t v v') /\ (header_suits t v v' -> view t a w' = Ok (with_header t v v') w') /\
    (calc_layout t a' w' = Ok l' w' <-> header_suits t v' v) /\ (header_suits t v' v -> view t a' w' = Ok (with_header t v' v) w').
Proof.
  intros t w a v a' v' Hwf Ho Ho' Hap. pose proof (head_size_le t v Hwf (proj1 Ho)) as L. pose proof (head_size_le t v' Hwf (proj1 Ho')) as L'.
  unfold swap_objects, mem_swap, load, store. pose proof (deref_ok t w a v Hwf Ho) as D1. pose proof (deref_ok t w a' v' Hwf Ho') as D2.
  unfold bind. rewrite D1, D2. rewrite !len_rd, D1.
  set (w1 := set_mem w (wr (w_mem w) a (rd (w_mem w) a' (head_size t)))). cbn [set_mem w_mem]. fold w1.
  assert (B1 : w_blocks w1 = w_blocks w) by reflexivity. rewrite (check_ref_same w w1 _ _ _ B1 D2).
  set (w2 := set_mem w1 (wr (w_mem w1) a' (rd (w_mem w) a (head_size t)))).
  assert (M : forall x, ~ (a <= x < a + head_size t) -> ~ (a' <= x < a' + head_size t) -> w_mem w2 x = w_mem w x).
  { intros x X1 X2. cbn [w2 w1 set_mem w_mem]. rewrite !wr_out by (rewrite len_rd; lia). reflexivity. }
  assert (Ma : forall i, i < head_size t -> w_mem w2 (a + i) = w_mem w (a' + i)).
  { intros i Hi. cbn [w2 set_mem w_mem]. rewrite wr_out by (rewrite len_rd; unfold apart in Hap; lia). cbn [w1 set_mem w_mem].
    rewrite wr_in by (rewrite len_rd; lia). replace (a + i - a) with i by lia. apply nth_rd. lia. }
  assert (Ma' : forall i, i < head_size t -> w_mem w2 (a' + i) = w_mem w (a + i)).
  { intros i Hi. cbn [w2 set_mem w_mem]. rewrite wr_in by (rewrite len_rd; lia). replace (a' + i - a') with i by lia. apply nth_rd. lia. }
  assert (B2 : w_blocks w2 = w_blocks w) by reflexivity.
  destruct (header_swap_ok t w a v (w_mem w) a' v' w2 Hwf Ho (proj1 Ho') (proj2 (proj2 Ho')) B2 Ma) as [S1 S2].
  { intros i H1 H2. apply M; unfold apart in Hap; lia. }
  destruct (header_swap_ok t w a' v' (w_mem w) a v w2 Hwf Ho' (proj1 Ho) (proj2 (proj2 Ho)) B2 Ma') as [S1' S2'].
  { intros i H1 H2. apply M; unfold apart in Hap; lia. }
  exists w2, (sp_lay t (vshape v)), (sp_lay t (vshape v')). split; [reflexivity|]. split; [reflexivity|]. split; [reflexivity|]. split; [exact M|].
  split; [exact (calc_layout_ok t w a v Hwf Ho)|]. split; [exact (calc_layout_ok t w a' v' Hwf Ho')|].
  split; [exact S1|]. split; [intros Hs; exact (view_ok t w2 a _ Hwf (proj1 (S2 Hs)))|].
  split; [exact S1'|]. intros Hs; exact (view_ok t w2 a' _ Hwf (proj1 (S2' Hs))).
Qed.

(** ** whole programs *)
(** Programs that in addition change leaves through shared references and swap objects of their own types, while what they
    change stays a value of its type (the changed layout controllers and the swapped headers keep the layout): every
    allowed operation is as safe as in the other programs (cf. C45_program_safe). *)
Lemma reach_cells_inv w sl σ n : reach_cells w sl σ n -> Inv w sl σ n.
Proof.
  induction 1 as [w Hb|w sl σ n o r w' sl' σ' d H IH Hal E Hs|w sl σ n o w' sl' σ' d H IH Hal E Hs
    |w sl σ n pl q new t v f w' sl' H IH Hp Hm Hn Hk E|w sl σ n pl pl' t v v' w' sl' H IH Hp Hp' Haw Hs Hs' E].
  - apply reach_inv. now constructor.
  - pose proof (exec_ok w sl σ n o IH Hal) as HS. rewrite E in HS. destruct HS as (σ1 & evs & A1 & _ & A2).
    now rewrite (astep_fun _ _ _ _ _ _ _ Hs A1).
  - pose proof (exec_ok w sl σ n o IH Hal) as HS. rewrite E in HS. destruct HS as (σ1 & evs & A1 & _ & A2).
    now rewrite (astep_fun _ _ _ _ _ _ _ Hs A1).
  - destruct (resolve_ok w sl σ n pl t v IH Hp) as (a & s0 & v0 & Er & Hwf & Ho & _).
    unfold exec_cell, call in E. cbn [fst snd] in E. rewrite (bind_ok _ _ _ _ _ Er) in E. cbn [fst snd] in E.
    pose proof (cell_set_ok t w a v q f new Hwf Ho Hm Hn) as HC. destruct (leaf v q) as [x|]; [|rewrite HC in E; discriminate].
    destruct HC as (w1 & o & E1 & H1 & H2 & H3 & _ & _ & _ & _ & H6 & H7 & H8). rewrite E1 in E. injection E as <- <-.
    destruct (layout_iff t w a v w1 _ Hwf Ho H3 H6 H7 H8) as [_ L2].
    apply (inv_put w sl σ n pl t v a w1 _ IH Hp Er H3); [|exact (L2 Hk)|exact H7].
    rewrite H2. intros z Hz. apply wr_out. lia.
  - destruct (resolve_ok w sl σ n pl t v IH Hp) as (a & s0 & v0 & Er & Hwf & Ho & _ & _ & _).
    destruct (resolve_ok w sl σ n pl' t v' IH Hp') as (a' & s0' & v0' & Er' & _ & Ho' & _ & _ & _).
    pose proof (head_size_le t v Hwf (proj1 Ho)) as L. pose proof (head_size_le t v' Hwf (proj1 Ho')) as L'.
    pose proof (deref_ok t w a v Hwf Ho) as D1. pose proof (deref_ok t w a' v' Hwf Ho') as D2.
    cbn [exec] in E. unfold call in E. rewrite (bind_ok _ _ _ _ _ Er), (bind_ok _ _ _ _ _ Er') in E. cbn [fst snd] in E.
    unfold mem_swap, load, store, bind in E. rewrite D1, D2, !len_rd, D1 in E.
    set (w1 := set_mem w (wr (w_mem w) a (rd (w_mem w) a' (head_size t)))) in *. cbn [set_mem w_mem] in E. fold w1 in E.
    assert (B1 : w_blocks w1 = w_blocks w) by reflexivity. rewrite (check_ref_same w w1 _ _ _ B1 D2) in E. injection E as <- <-.
    assert (Ma : forall i, i < head_size t -> w_mem w1 (a + i) = w_mem w (a' + i)).
    { intros i Hi. cbn [w1 set_mem w_mem]. rewrite wr_in by (rewrite len_rd; lia). replace (a + i - a) with i by lia. apply nth_rd. lia. }
    assert (Mo : forall i, head_size t <= i -> i < vsize t v -> w_mem w1 (a + i) = w_mem w (a + i)).
    { intros i Hi _. cbn [w1 set_mem w_mem]. apply wr_out. rewrite len_rd. lia. }
    destruct (header_swap_ok t w a v (w_mem w) a' v' w1 Hwf Ho (proj1 Ho') (proj2 (proj2 Ho')) B1 Ma Mo) as [_ S2]. destruct (S2 Hs) as [O1 E1].
    assert (M1 : same_outside (w_mem w) (w_mem w1) a (vsize t v)) by (intros z Hz; apply wr_out; rewrite len_rd; lia).
    pose proof (inv_put w sl σ n pl t v a w1 _ IH Hp Er B1 M1 O1 E1) as HI1.
    pose proof (put_all_same σ pl t v _ Hp E1) as HS. pose proof (at_place_away σ pl pl' t v t v' _ Hp E1 Hp' Haw) as Hp1.
    pose proof (resolve_inv_same w sl σ n w1 _ n pl' t v' a' IH HI1 HS Hp' Er') as Er1.
    destruct (resolve_ok w1 sl _ n pl' t v' HI1 Hp1) as (a1 & ? & ? & Er2 & _ & O1' & _). rewrite Er1 in Er2. injection Er2 as <-.
    set (w2 := set_mem w1 (wr (w_mem w1) a' (rd (w_mem w) a (head_size t)))).
    destruct (header_swap_ok t w1 a' v' (w_mem w) a v w2 Hwf O1' (proj1 Ho) (proj2 (proj2 Ho)) eq_refl) as [_ S3].
    { intros i Hi. cbn [w2 set_mem w_mem]. rewrite wr_in by (rewrite len_rd; lia). replace (a' + i - a') with i by lia. apply nth_rd. lia. }
    { intros i Hi _. cbn [w2 set_mem w_mem]. apply wr_out. rewrite len_rd. lia. }
    destruct (S3 Hs') as [O2 E2].
    apply (inv_put w1 sl _ n pl' t v' a' w2 _ HI1 Hp1 Er1 eq_refl); [|exact O2|exact E2].
    intros z Hz. apply wr_out. rewrite len_rd. lia.
Qed.
Theorem C65_programs_safe_partial : forall w sl σ n o,
  reach_cells w sl σ n -> allowed σ o ->
  match exec o (w, sl) with
  | Ok r (w', sl') => exists σ' evs, w_log w' = w_log w ++ evs /\ astep σ o (Done r) σ' (drops_of evs) /\
      reach_cells w' sl' σ' (match o with OForget _ => S n | _ => n end)
  | Panic (w', sl') => exists σ' evs, w_log w' = w_log w ++ evs /\ astep σ o Panicked σ' (drops_of evs) /\
      reach_cells w' sl' σ' (match o with ONewBox _ _ => S n | _ => n end)
  | UB u => u = UNull /\ exists t p i, o = ONewBox t p /\ den σ t p i /\
      forall a, w_alloc w (w_tick w) (isize t i) (sp_align t) = Some a ->
        valid_answer (w_blocks w) a (isize t i) (sp_align t) = false
  end.
Proof.
  intros w sl σ n o HR Hal. pose proof (exec_ok w sl σ n o (reach_cells_inv _ _ _ _ HR) Hal) as H.
  destruct (exec o (w, sl)) as [r [w' sl']|[w' sl']|u] eqn:E; cbn [step_res] in H; unfold step_ok in H.
  - destruct H as (σ' & evs & A & L & _). exists σ', evs. split; [exact L|]. split; [exact A|]. eapply RC_done; eauto.
  - destruct H as (σ' & evs & A & L & _). exists σ', evs. split; [exact L|]. split; [exact A|]. eapply RC_panicked; eauto.
  - exact H.
Qed.
(** ... and everything such a program holds reads as the account says. *)
Theorem C65_programs_read_partial : forall w sl σ n pl t v,
  reach_cells w sl σ n -> at_place σ pl = Some (t, v) -> exec (ORead pl) (w, sl) = Ok (OutVal v) (w, sl).
Proof.
  intros w sl σ n pl t v HR Hp. destruct (resolve_ok w sl σ n pl t v (reach_cells_inv _ _ _ _ HR) Hp) as (a & s0 & v0 & E & Hwf & Ho & _).
  cbn [exec]. unfold call. step E. cbn [fst snd]. now rewrite (view_ok t w a v Hwf Ho).
Qed.

(** ** concrete cases *)
(** Three boxes of the struct D { #[controls_layout] a: u8, #[controls_layout] c: u8, h: Box<_>, xs: [u16; a - c] }, with
    two, two and six elements. *)
Definition v_diff6 : vval := VRec [VFix (by_ [9]); VFix (by_ [3]); VFix h1; VArr [by_ [0;0]; by_ [1;0]; by_ [2;0]; by_ [3;0]; by_ [4;0]; by_ [5;0]]].
Definition e1 := step_cfg (ONewBox t_diff (p_diff 5 3)) (w_start, []).
Definition e2 := step_cfg (ONewBox t_diff (p_diff 9 7)) e1.
Definition e3 := step_cfg (ONewBox t_diff (p_diff 9 3)) e2.
Definition σe : list aval := [ABox t_diff (v_diff 5 3); ABox t_diff (v_diff 9 7); ABox t_diff v_diff6].
Lemma reach_e3 : reach (fst e3) (snd e3) σe 0.
Proof.
  assert (HB : forall c σ a b v, reach (fst c) (snd c) σ 0 -> 0 < isize t_diff (i_diff a b) -> ival t_diff (i_diff a b) = Some v ->
     out_of (exec (ONewBox t_diff (p_diff a b)) c) = Some OutUnit -> fits t_diff (i_diff a b) = true ->
     reach (fst (step_cfg (ONewBox t_diff (p_diff a b)) c)) (snd (step_cfg (ONewBox t_diff (p_diff a b)) c)) (σ ++ [ABox t_diff v]) 0).
  { intros c σ a b v R Hpos Hv Ho Hle. pose proof (p_diff_den σ a b) as D.
    assert (Hk : kill_vals σ (moves (p_diff a b)) = σ) by reflexivity.
    apply (reach_step c σ 0 (ONewBox t_diff (p_diff a b)) OutUnit (σ ++ [ABox t_diff v]) []); [exact R| |exact Ho|].
    - apply L_new_box with (i_diff a b); [apply t_diff_wf|exact D| |exact Hpos]. apply no_moves; [reflexivity|intros h []].
    - rewrite <- Hk at 2. apply (A_new_box σ t_diff (p_diff a b) (i_diff a b) v); [exact D|exact Hle|exact Hv]. }
  assert (R1 : reach (fst e1) (snd e1) [ABox t_diff (v_diff 5 3)] 0).
  { apply (HB (w_start, []) []); [now constructor|vm_compute; reflexivity..]. }
  assert (R2 : reach (fst e2) (snd e2) [ABox t_diff (v_diff 5 3); ABox t_diff (v_diff 9 7)] 0).
  { apply (HB e1 [ABox t_diff (v_diff 5 3)]); [exact R1|vm_compute; reflexivity..]. }
  apply (HB e2 [ABox t_diff (v_diff 5 3); ABox t_diff (v_diff 9 7)]); [exact R2|vm_compute; reflexivity..].
Qed.
Lemma vok_diff x y xs : len xs = lf_diff [by_ [x]; by_ [y]] -> lf_diff [by_ [x]; by_ [y]] < W -> elems_ok f_u16 xs -> vok t_diff (VRec [VFix (by_ [x]); VFix (by_ [y]); VFix h1; VArr xs]).
Proof. intros H1 H2 H3. cbn [vok vok_flds t_diff vctrls]. repeat split; try reflexivity; auto. Qed.
(** The headers of the first two suit each other, those of the first and the third do not; a pair of places to swap,
    a controller to set and an element to set. *)
Example C65_meets :
  reach (fst e3) (snd e3) σe 0 /\ at_place σe (PlObj 0 PHere) = Some (t_diff, v_diff 5 3) /\ at_place σe (PlObj 1 PHere) = Some (t_diff, v_diff 9 7) /\
  at_place σe (PlObj 2 PHere) = Some (t_diff, v_diff6) /\ away σe (PlObj 0 PHere) (PlObj 1 PHere) /\
  header_suits t_diff (v_diff 5 3) (v_diff 9 7) /\ header_suits t_diff (v_diff 9 7) (v_diff 5 3) /\ ~ header_suits t_diff (v_diff 5 3) v_diff6 /\
  ref_leaf t_diff (PFld 0 PHere) = Some u8 /\ mut_leaf t_diff (PFld 0 PHere) = None /\ leaf (v_diff 5 3) (PFld 0 PHere) = Some (by_ [5]) /\
  ~ vok t_diff (put (v_diff 5 3) (PFld 0 PHere) (by_ [9])) /\
  mut_leaf t_diff (PFld 3 (PIdx 1)) = Some f_u16 /\ vok t_diff (put (v_diff 5 3) (PFld 3 (PIdx 1)) (by_ [8;8])).
Proof.
  split; [apply reach_e3|]. do 3 (split; [reflexivity|]). split; [cbn; left; discriminate|].
  split; [apply vok_diff; [reflexivity|reflexivity|repeat constructor]|]. split; [apply vok_diff; [reflexivity|reflexivity|repeat constructor]|].
  split; [intros (_ & _ & _ & _ & [H _] & _); vm_compute in H; discriminate|]. do 3 (split; [reflexivity|]).
  split; [intros (_ & _ & _ & _ & [H _] & _); vm_compute in H; discriminate|]. split; [reflexivity|].
  apply vok_diff; [reflexivity|reflexivity|repeat constructor].
Qed.
(** A program that swaps the first two boxes' contents and sets an element through a shared reference. *)
Definition pl_e (k : nat) : place := PlObj k PHere.
Definition cfg_cell (r : res config out) : config := cfg_of r.
Definition e4 := step_cfg (OSwapObj (pl_e 0) (pl_e 1)) e3.
Definition e5 := cfg_cell (exec_cell (pl_e 0) (PFld 3 (PIdx 1)) (by_ [8;8]) e4).
Lemma reach_to_cells w sl σ n : reach w sl σ n -> reach_cells w sl σ n.
Proof. induction 1; [now constructor|eapply RC_done; eauto|eapply RC_panicked; eauto]. Qed.
Lemma cell_cfg pl q new c : out_of (exec_cell pl q new c) = Some OutUnit -> exec_cell pl q new (fst c, snd c) = Ok OutUnit (fst (cfg_cell (exec_cell pl q new c)), snd (cfg_cell (exec_cell pl q new c))).
Proof. destruct c as [w sl]. cbn [fst snd]. destruct (exec_cell pl q new (w, sl)) as [o [w' sl']| |]; cbn; intros H; try discriminate. injection H as ->. reflexivity. Qed.
Lemma ok_cfg r : out_of r = Some OutUnit -> r = Ok OutUnit (fst (cfg_of r), snd (cfg_of r)).
Proof. destruct r as [o [w sl]| |]; cbn; intros H; try discriminate. injection H as ->. reflexivity. Qed.
Example C65_meets_program :
  reach_cells (fst e5) (snd e5) [ABox t_diff (VRec [VFix (by_ [9]); VFix (by_ [7]); VFix h1; VArr [by_ [0;0]; by_ [8;8]]]); ABox t_diff (v_diff 5 3); ABox t_diff v_diff6] 0.
Proof.
  destruct C65_meets as (R & P0 & P1 & _ & Haw & S1 & S2 & _).
  pose proof (RC_swap (fst e3) (snd e3) σe 0 (pl_e 0) (pl_e 1) t_diff _ _ (fst e4) (snd e4) (reach_to_cells _ _ _ _ R) P0 P1 Haw S1 S2) as R4.
  assert (R4' : reach_cells (fst e4) (snd e4) [ABox t_diff (v_diff 9 7); ABox t_diff (v_diff 5 3); ABox t_diff v_diff6] 0).
  { apply R4. apply (PropsPin.step_ok (OSwapObj (pl_e 0) (pl_e 1)) e3). vm_compute. reflexivity. }
  apply (RC_cell (fst e4) (snd e4) [ABox t_diff (v_diff 9 7); ABox t_diff (v_diff 5 3); ABox t_diff v_diff6] 0 (pl_e 0) (PFld 3 (PIdx 1)) (by_ [8;8])
    t_diff (v_diff 9 7) f_u16 (fst e5) (snd e5) R4' eq_refl eq_refl eq_refl).
  - apply vok_diff; [reflexivity|reflexivity|repeat constructor].
  - apply (cell_cfg (pl_e 0) (PFld 3 (PIdx 1)) (by_ [8;8]) e4). vm_compute. reflexivity.
Qed.

(** ** what is missing: safe code can change the layout *)
(** A layout controller with interior mutability (a type the user defines around Cell<u8>, with a [const fn] for the
    length expression to read it): setting it through a shared reference is safe code, returns, and the next read of
    the object runs out of its memory. *)
Theorem C65_cell_refuted : exists w sl σ n pl q new t v f w',
  reach w sl σ n /\ at_place σ pl = Some (t, v) /\ ref_leaf t q = Some f /\ len new = f_size f /\
  exec_cell pl q new (w, sl) = Ok OutUnit (w', sl) /\ exec (ORead pl) (w', sl) = UB UOob.
Proof.
  exists (fst e3), (snd e3), σe, 0%nat, (pl_e 0), (PFld 0 PHere), (by_ [9]), t_diff, (v_diff 5 3), u8,
    (fst (cfg_of (exec_cell (pl_e 0) (PFld 0 PHere) (by_ [9]) (fst e3, snd e3)))).
  assert (Es : snd (cfg_of (exec_cell (pl_e 0) (PFld 0 PHere) (by_ [9]) (fst e3, snd e3))) = snd e3) by (vm_compute; reflexivity).
  split; [apply reach_e3|]. do 3 (split; [reflexivity|]). split.
  - pose proof (ok_cfg (exec_cell (pl_e 0) (PFld 0 PHere) (by_ [9]) (fst e3, snd e3)) ltac:(vm_compute; reflexivity)) as H.
    rewrite Es in H. exact H.
  - vm_compute. reflexivity.
Qed.
(** A hand-written [impl Unpin for D {}] (D is the user's type, and Unpin a safe trait): mem::swap of two boxes' contents is
    safe code, returns, and the next read of the shorter object runs out of its memory. *)
Theorem C65_unpin_impl_refuted : exists w sl σ n pl pl' t v v' w',
  reach w sl σ n /\ at_place σ pl = Some (t, v) /\ at_place σ pl' = Some (t, v') /\ away σ pl pl' /\
  (exists hs ha fs, t = TRec KStruct hs ha fs) /\
  exec (OSwapObj pl pl') (w, sl) = Ok OutUnit (w', sl) /\ exec (ORead pl) (w', sl) = UB UOob.
Proof.
  exists (fst e3), (snd e3), σe, 0%nat, (pl_e 0), (pl_e 2), t_diff, (v_diff 5 3), v_diff6,
    (fst (cfg_of (exec (OSwapObj (pl_e 0) (pl_e 2)) (fst e3, snd e3)))).
  assert (Es : snd (cfg_of (exec (OSwapObj (pl_e 0) (pl_e 2)) (fst e3, snd e3))) = snd e3) by (vm_compute; reflexivity).
  split; [apply reach_e3|]. do 2 (split; [reflexivity|]). split; [cbn; left; discriminate|]. split; [repeat eexists|]. split.
  - pose proof (ok_cfg (exec (OSwapObj (pl_e 0) (pl_e 2)) (fst e3, snd e3)) ltac:(vm_compute; reflexivity)) as H.
    rewrite Es in H. exact H.
  - vm_compute. reflexivity.
Qed.
