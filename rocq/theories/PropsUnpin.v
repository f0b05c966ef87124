(** PropsUnpin.v - property C57: swapping values and objects. *)
From Verif Require Import PlaceAddr PropsProgram PropsAccount PropsPin.

(** Safe code gets &mut T out of Pin<&mut T> only if T is Unpin, and can then mem::swap whole objects of
    type T: this copies size_of::<T>() bytes, the header. All objects of an Unpin type are nothing but
    their header, whichever of the fixed-length types are Unpin. *)
Theorem C57_header_only : forall U t v, unpin U t = true -> vok t v -> vsize t v = head_size t.
Proof. intros U t v Hu Hv. exact (proj2 (unpin_vshape U t v v Hu Hv Hv)). Qed.
(** So no type with objects of different sizes is Unpin. *)
Theorem C57_varying_not_unpin : forall U t v v', vok t v -> vok t v' -> vsize t v <> vsize t v' -> unpin U t = false.
Proof.
  intros U t v v' Hv Hv' Hne. destruct (unpin U t) eqn:E; [|reflexivity].
  rewrite (C57_header_only U t v E Hv), (C57_header_only U t v' E Hv') in Hne. contradiction.
Qed.
(** [has_tail t]: objects of type [t] may have parts outside the header: an array, a field of a
    variable-length type. These types are not Unpin. *)
Inductive has_tail : vty -> Prop :=
| T_array : forall f k, has_tail (TArray f k)
| T_new : forall t, has_tail t -> has_tail (TNew t)
| T_rec : forall k hs ha fs, (exists j t, varlen_field fs j = Some t) \/ (exists fs1 f lf, array_field fs fs1 f lf) -> has_tail (TRec k hs ha fs)
with array_field : flds -> flds -> fty -> (list (list cell) -> N) -> Prop :=
| F_here : forall f lf r, array_field (FArr f lf r) r f lf
| F_normal : forall off g r r' f lf, array_field r r' f lf -> array_field (FNormal off g r) r' f lf
| F_length : forall off g r r' f lf, array_field r r' f lf -> array_field (FLength off g r) r' f lf
| F_var : forall t r r' f lf, array_field r r' f lf -> array_field (FVar t r) r' f lf
| F_arr : forall g lg r r' f lf, array_field r r' f lf -> array_field (FArr g lg r) r' f lf.
Theorem C57_tail_not_unpin : forall U t, has_tail t -> unpin U t = false.
Proof.
  intros U t H. induction H as [f k|t H IH|k hs ha fs H]; cbn [unpin]; auto.
  destruct H as [(j & t & H)|(r & f & lf & H)].
  - revert j H. induction fs as [|off f r IH|off f r IH|t0 r IH|f lf r IH]; intros [|j] H; cbn [varlen_field unpin_flds] in *; try discriminate; auto;
      rewrite (IH _ H); apply andb_false_r.
  - induction H; cbn [unpin_flds]; auto; rewrite IHarray_field; apply andb_false_r.
Qed.

(** ** separate places *)
Lemma diverge_sym p q : diverge p q -> diverge q p.
Proof. induction 1; [apply V_fields; auto|apply V_field; auto|apply V_inner; auto]. Qed.
Lemma away_sym σ pl pl' : away σ pl pl' -> away σ pl' pl.
Proof.
  unfold away. destruct (whereabouts σ pl) as [[[h k] p]|], (whereabouts σ pl') as [[[h' k'] p']|]; auto.
  intros [H|[H|H]]; auto. right. right. now apply diverge_sym.
Qed.
(** Two writes to separate places; what the places, and the others, hold then. *)
Lemma puts_away σ pl pl' t v t' v' x x' : at_place σ pl = Some (t, v) -> at_place σ pl' = Some (t', v') -> away σ pl pl' ->
  vshape x = vshape v -> vshape x' = vshape v' ->
  let σ' := put_place (put_place σ pl x) pl' x' in
  at_place σ' pl = Some (t, x) /\ at_place σ' pl' = Some (t', x') /\
  forall pl2 t2 v2, at_place σ pl2 = Some (t2, v2) -> away σ pl pl2 -> away σ pl' pl2 -> at_place σ' pl2 = Some (t2, v2).
Proof.
  intros Hp Hp' Ha Hx Hx'. cbn. pose proof (put_all_same σ pl t v x Hp Hx) as HS.
  pose proof (at_place_put σ pl t v x Hp Hx) as H1. pose proof (at_place_away σ pl pl' _ _ _ _ x Hp Hx Hp' Ha) as H1'.
  pose proof (away_same σ _ pl' pl _ _ _ _ HS Hp' Hp (away_sym _ _ _ Ha)) as Ha'.
  split; [exact (at_place_away _ pl' pl _ _ _ _ x' H1' Hx' H1 Ha')|]. split; [exact (at_place_put _ pl' _ _ x' H1' Hx')|].
  intros pl2 t2 v2 H2 A1 A2. pose proof (at_place_away σ pl pl2 _ _ _ _ x Hp Hx H2 A1) as H3.
  exact (at_place_away _ pl' pl2 _ _ _ _ x' H1' Hx' H3 (away_same σ _ pl' pl2 _ _ _ _ HS Hp' H2 A2)).
Qed.

(** ** swapping *)
(** What it means that a call ended with the log, the slots and all separate objects as before. *)
Definition rest_same (w : world) (sl : list slot) (σ : list aval) (w' : world) (pl pl' : place) : Prop :=
  drops_of (w_log w') = drops_of (w_log w) /\
  forall pl2 t2 v2, at_place σ pl2 = Some (t2, v2) -> away σ pl pl2 -> away σ pl' pl2 ->
    exec (ORead pl2) (w', sl) = Ok (OutVal v2) (w', sl).
Lemma swap_ends w sl σ n o : reach w sl σ n -> allowed σ o ->
  match o with OSwap _ _ _ | OSwap2 _ _ _ _ | OSwapObj _ _ => True | _ => False end ->
  exists r w' σ', ends (exec o (w, sl)) r w' sl /\ astep σ o r σ' [] /\ reach w' sl σ' n /\ drops_of (w_log w') = drops_of (w_log w).
Proof.
  intros HR Hal Ho. pose proof (C45_program_safe w sl σ n o HR Hal) as HS.
  assert (Hsl : forall r w' sl', ends (exec o (w, sl)) r w' sl' -> sl' = sl).
  { intros r w' sl' He. destruct o; try contradiction; cbn [exec] in He; unfold call in He;
      (destruct (bind _ _ w) as [? ?|?|?]; destruct r; inversion He; reflexivity). }
  assert (Hnil : forall r σ' d, astep σ o r σ' d -> d = []) by (intros r σ' d HA; destruct o; try contradiction; inversion HA; reflexivity).
  destruct (exec o (w, sl)) as [r [w' sl']|[w' sl']|u] eqn:E.
  - destruct HS as (σ' & evs & L & A & R). rewrite (Hsl (Done r) w' sl' eq_refl) in *. pose proof (Hnil _ _ _ A) as Hd. rewrite Hd in A.
    exists (Done r), w', σ'. split; [reflexivity|]. split; [exact A|]. split; [destruct o; try contradiction; exact R|].
    now rewrite L, drops_app, Hd, app_nil_r.
  - destruct HS as (σ' & evs & n' & L & A & R & En). rewrite (Hsl Panicked w' sl' eq_refl) in *. pose proof (Hnil _ _ _ A) as Hd. rewrite Hd in A.
    exists Panicked, w', σ'. split; [reflexivity|]. split; [exact A|]. split; [rewrite En in R; destruct o; try contradiction; exact R|].
    now rewrite L, drops_app, Hd, app_nil_r.
  - destruct HS as (_ & t & p & i & -> & _). contradiction.
Qed.
(** mem::swap of two whole objects of an Unpin type (FixedLen<T>, newtypes of it, structs with header
    fields only), wherever they are: each reads as the other did, nothing is destroyed, every other object
    reads as before, and the program can go on. *)
Theorem C57_swap_objects : forall w sl σ n U pl pl' t v v',
  reach w sl σ n -> at_place σ pl = Some (t, v) -> at_place σ pl' = Some (t, v') -> away σ pl pl' -> unpin U t = true ->
  exists w' σ', exec (OSwapObj pl pl') (w, sl) = Ok OutUnit (w', sl) /\ reach w' sl σ' n /\
    exec (ORead pl) (w', sl) = Ok (OutVal v') (w', sl) /\ exec (ORead pl') (w', sl) = Ok (OutVal v) (w', sl) /\
    rest_same w sl σ w' pl pl'.
Proof.
  intros w sl σ n U pl pl' t v v' HR Hp Hp' Ha Hu. pose proof (L_swap_obj σ U pl pl' t v v' Hp Hp' Ha Hu) as Hal.
  destruct (swap_ends w sl σ n _ HR Hal I) as (r & w' & σ' & He & HA & HR' & Hl). pose proof (reach_inv _ _ _ _ HR) as HI.
  destruct (resolve_ok w sl σ n pl _ _ HI Hp) as (a & s1 & v1 & _ & _ & Ho & _).
  destruct (resolve_ok w sl σ n pl' _ _ HI Hp') as (a' & s1' & v1' & _ & _ & Ho' & _).
  pose proof (proj1 (unpin_vshape U t v v' Hu (proj1 Ho) (proj1 Ho'))) as Es.
  assert (r = Done OutUnit /\ σ' = put_place (put_place σ pl v') pl' v) as [-> ->].
  { inversion HA; subst. repeat match goal with A : at_place σ ?p = Some _, B : at_place σ ?p = Some _ |- _ => rewrite A in B; injection B; intros; subst; clear B end. auto. }
  destruct (puts_away σ pl pl' t v t v' v' v Hp Hp' Ha (eq_sym Es) Es) as (P1 & P2 & P3). pose proof (proj1 (C45_reads_back w' sl _ n HR')) as HB.
  eexists w', _. split; [exact He|]. split; [exact HR'|]. split; [exact (HB pl _ _ P1)|]. split; [exact (HB pl' _ _ P2)|].
  split; [exact Hl|]. intros pl2 t2 v2 H2 A1 A2. exact (HB pl2 _ _ (P3 pl2 t2 v2 H2 A1 A2)).
Qed.
(** mem::swap of two leaves (fields reached through muts(), array elements, FixedLen values) of two
    separate objects. An index out of range panics, and nothing changes. *)
Theorem C57_swap_leaves : forall w sl σ n pl q pl' q' t v t' v' f,
  reach w sl σ n -> at_place σ pl = Some (t, v) -> at_place σ pl' = Some (t', v') -> away σ pl pl' ->
  mut_leaf t q = Some f -> mut_leaf t' q' = Some f ->
  match leaf v q, leaf v' q' with
  | Some x, Some y =>
      exists w' σ', exec (OSwap2 pl q pl' q') (w, sl) = Ok OutUnit (w', sl) /\ reach w' sl σ' n /\
        exec (ORead pl) (w', sl) = Ok (OutVal (put v q y)) (w', sl) /\
        exec (ORead pl') (w', sl) = Ok (OutVal (put v' q' x)) (w', sl) /\
        rest_same w sl σ w' pl pl'
  | _, _ => exists w', exec (OSwap2 pl q pl' q') (w, sl) = Panic (w', sl) /\ reach w' sl σ n
  end.
Proof.
  intros w sl σ n pl q pl' q' t v t' v' f HR Hp Hp' Ha Hm Hm'. pose proof (L_swap2 σ pl q pl' q' t v t' v' f Hp Hp' Ha Hm Hm') as Hal.
  destruct (swap_ends w sl σ n _ HR Hal I) as (r & w' & σ' & He & HA & HR' & Hl).
  destruct (leaf v q) as [x|] eqn:El; [destruct (leaf v' q') as [y|] eqn:El'|];
    [|exists w'; assert (r = Panicked /\ σ' = σ) as [-> ->]; [|split; [exact He|exact HR']]..];
    [assert (r = Done OutUnit /\ σ' = put_place (put_place σ pl (put v q y)) pl' (put v' q' x)) as [-> ->]| |];
    try (inversion HA; subst;
      repeat match goal with A : at_place σ ?p = Some _, B : at_place σ ?p = Some _ |- _ => rewrite A in B; injection B; intros; subst; clear B end;
      repeat match goal with A : leaf ?v ?p = Some _, B : leaf ?v ?p = Some _ |- _ => rewrite A in B; injection B; intros; subst; clear B end;
      try (match goal with A : _ \/ _ |- _ => destruct A end; congruence); try congruence; auto; fail).
  destruct (puts_away σ pl pl' t v t' v' (put v q y) (put v' q' x) Hp Hp' Ha (put_shape _ _ _) (put_shape _ _ _)) as (P1 & P2 & P3).
  pose proof (proj1 (C45_reads_back w' sl _ n HR')) as HB.
  eexists w', _. split; [exact He|]. split; [exact HR'|]. split; [exact (HB pl _ _ P1)|]. split; [exact (HB pl' _ _ P2)|].
  split; [exact Hl|]. intros pl2 t2 v2 H2 A1 A2. exact (HB pl2 _ _ (P3 pl2 t2 v2 H2 A1 A2)).
Qed.
(** ... and of two leaves of one object, such as slice::swap on mut_slice() of an array. *)
Theorem C57_swap_within : forall w sl σ n pl q q' t v f,
  reach w sl σ n -> at_place σ pl = Some (t, v) -> mut_leaf t q = Some f -> mut_leaf t q' = Some f ->
  match leaf v q, leaf v q' with
  | Some x, Some y =>
      exists w' σ' v', exec (OSwap pl q q') (w, sl) = Ok OutUnit (w', sl) /\ reach w' sl σ' n /\
        exec (ORead pl) (w', sl) = Ok (OutVal v') (w', sl) /\
        leaf v' q = Some y /\ leaf v' q' = Some x /\ (forall q2, q2 <> q -> q2 <> q' -> leaf v' q2 = leaf v q2) /\
        rest_same w sl σ w' pl pl
  | _, _ => exists w', exec (OSwap pl q q') (w, sl) = Panic (w', sl) /\ reach w' sl σ n
  end.
Proof.
  intros w sl σ n pl q q' t v f HR Hp Hm Hm'. pose proof (L_swap σ pl q q' t v f Hp Hm Hm') as Hal.
  destruct (swap_ends w sl σ n _ HR Hal I) as (r & w' & σ' & He & HA & HR' & Hl).
  destruct (leaf v q) as [x|] eqn:El; [destruct (leaf v q') as [y|] eqn:El'|];
    [|exists w'; assert (r = Panicked /\ σ' = σ) as [-> ->]; [|split; [exact He|exact HR']]..];
    [assert (r = Done OutUnit /\ σ' = put_place σ pl (put (put v q y) q' x)) as [-> ->]| |];
    try (inversion HA; subst;
      repeat match goal with A : at_place σ ?p = Some _, B : at_place σ ?p = Some _ |- _ => rewrite A in B; injection B; intros; subst; clear B end;
      repeat match goal with A : leaf ?v ?p = Some _, B : leaf ?v ?p = Some _ |- _ => rewrite A in B; injection B; intros; subst; clear B end;
      try (match goal with A : _ \/ _ |- _ => destruct A end; congruence); try congruence; auto; fail).
  assert (Hs : vshape (put (put v q y) q' x) = vshape v) by now rewrite !put_shape.
  pose proof (at_place_put σ pl t v _ Hp Hs) as P1. pose proof (proj1 (C45_reads_back w' sl _ n HR')) as HB.
  assert (El2 : leaf (put v q y) q' = Some y) by (destruct (path_eq_dec q q') as [<-|Hq]; [eapply leaf_put_eq; exact El|rewrite leaf_put_ne; auto]).
  eexists w', _, _. split; [exact He|]. split; [exact HR'|]. split; [exact (HB pl _ _ P1)|].
  split; [destruct (path_eq_dec q' q) as [->|Hq]; [rewrite (leaf_put_eq q _ x y El2); congruence|rewrite leaf_put_ne by exact Hq; eapply leaf_put_eq; exact El]|].
  split; [eapply leaf_put_eq; exact El2|]. split; [intros q2 N1 N2; rewrite !leaf_put_ne; auto|].
  split; [exact Hl|]. intros pl2 t2 v2 H2 A1 _. exact (HB pl2 _ _ (at_place_away σ pl pl2 _ _ _ _ _ Hp Hs H2 A1)).
Qed.

(** ** concrete cases *)
(** The FixedLen fields of two tuples in a sequence are swapped, after the first was changed. *)
Definition pl_f0 := PlElem 1 0 (PFld 1 PHere).
Definition pl_f1 := PlElem 1 1 (PFld 1 PHere).
Definition op_as := OAssign pl_f0 PHere (by_ [9;9;9;9]).
Definition c10 := step_cfg op_as c4.
Definition σ10 : list aval := [ABox t_ex v_ex; ASeq t_tup true [VRec [VArr [h2; h3]; VFix (by_ [9;9;9;9])]; v_emp] []].
Lemma reach_c10 : reach (fst c10) (snd c10) σ10 0.
Proof.
  apply (reach_step c4 σ4 0 op_as OutUnit σ10 []); [apply reach_c4| |vm_compute; reflexivity|].
  - eapply L_assign; [reflexivity|reflexivity|reflexivity].
  - exact (A_assign σ4 pl_f0 PHere (by_ [9;9;9;9]) (TFixed f_u32) (VFix (by_ [1;2;3;4])) f_u32 (by_ [1;2;3;4]) eq_refl eq_refl eq_refl).
Qed.
Example C57_meets :
  reach (fst c10) (snd c10) σ10 0 /\ at_place σ10 pl_f0 = Some (TFixed f_u32, VFix (by_ [9;9;9;9])) /\
  at_place σ10 pl_f1 = Some (TFixed f_u32, VFix (by_ [1;2;3;4])) /\ away σ10 pl_f0 pl_f1 /\ unpin (fun _ => true) (TFixed f_u32) = true /\
  (* two elements of the array of the first tuple *)
  at_place σ10 (PlElem 1 0 PHere) = Some (t_tup, VRec [VArr [h2; h3]; VFix (by_ [9;9;9;9])]) /\
  mut_leaf t_tup (PFld 0 (PIdx 0)) = Some f_box /\ mut_leaf t_tup (PFld 0 (PIdx 1)) = Some f_box /\ mut_leaf t_tup (PFld 0 (PIdx 2)) = Some f_box /\
  leaf (VRec [VArr [h2; h3]; VFix (by_ [9;9;9;9])]) (PFld 0 (PIdx 1)) = Some h3 /\
  leaf (VRec [VArr [h2; h3]; VFix (by_ [9;9;9;9])]) (PFld 0 (PIdx 2)) = None.
Proof. split; [apply reach_c10|]. repeat split; try reflexivity. cbn. right. left. discriminate. Qed.
Example C57_tail_meets : has_tail t_tup /\ has_tail (TStr LU8) /\ vok (TArray f_box LU8) (VArr [h2; h3]) /\ vok (TArray f_box LU8) (VArr []) /\
  vsize (TArray f_box LU8) (VArr [h2; h3]) <> vsize (TArray f_box LU8) (VArr []).
Proof.
  split; [apply T_rec; left; exists 0%nat; eexists; reflexivity|]. split; [apply T_new, T_array|].
  split; [cbn; unfold elems_ok; repeat split; try lia; repeat constructor|]. split; [cbn; unfold elems_ok; repeat split; try lia; constructor|vm_compute; discriminate].
Qed.
(** Why the markers are needed: were Array Unpin, mem::swap of two arrays of different length in two tuples
    of a sequence would exchange the lengths but not the elements; the next read of the sequence runs
    out of its memory. *)
Example C57_markers_needed : exists w sl σ n pl pl' t v v' w' h,
  reach w sl σ n /\ at_place σ pl = Some (t, v) /\ at_place σ pl' = Some (t, v') /\ away σ pl pl' /\
  exec (OSwapObj pl pl') (w, sl) = Ok OutUnit (w', sl) /\ exec (OReadSeq h) (w', sl) = UB UOob.
Proof.
  exists (fst c4), (snd c4), σ4, 0%nat, (PlElem 1 0 (PFld 0 PHere)), (PlElem 1 1 (PFld 0 PHere)), (TArray f_box LU8), (VArr [h2; h3]), (VArr []),
    (fst (step_cfg (OSwapObj (PlElem 1 0 (PFld 0 PHere)) (PlElem 1 1 (PFld 0 PHere))) c4)), 1%nat.
  split; [apply reach_c4|]. split; [reflexivity|]. split; [reflexivity|]. split; [cbn; right; left; discriminate|]. split.
  - pose proof (step_ok (OSwapObj (PlElem 1 0 (PFld 0 PHere)) (PlElem 1 1 (PFld 0 PHere))) c4 OutUnit ltac:(vm_compute; reflexivity)) as H.
    replace (snd c4) with (snd (step_cfg (OSwapObj (PlElem 1 0 (PFld 0 PHere)) (PlElem 1 1 (PFld 0 PHere))) c4)) at 2 by (vm_compute; reflexivity). exact H.
  - vm_compute. reflexivity.
Qed.
