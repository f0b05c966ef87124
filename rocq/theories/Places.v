(** Places.v - values at places: shapes, places that are away from each other. *)
From Verif Require Export PlaceSpec ProgTake.

(** ** shapes *)
(** Two values of a program that differ in the values of leaves only. *)
Definition same_shape (u u' : aval) : Prop :=
  match u, u' with
  | ABox t v, ABox t' v' | AOwn t v, AOwn t' v' => t = t' /\ vshape v = vshape v'
  | ASeq t c vs old, ASeq t' c' vs' old' => t = t' /\ c = c' /\ map vshape vs = map vshape vs' /\ old = old'
  | ADead, ADead => True
  | _, _ => False
  end.
Lemma same_shape_refl u : same_shape u u.
Proof. destruct u; cbn; auto. Qed.
Lemma total_shape t : forall vs vs', map vshape vs = map vshape vs' -> total t vs = total t vs'.
Proof.
  induction vs as [|v vs IH]; intros [|v' vs'] H; try discriminate; [reflexivity|]. injection H as H1 H2. cbn [total].
  rewrite (IH _ H2). unfold cells, vsize. now rewrite H1.
Qed.
Lemma starts_shape t : forall vs vs' b, map vshape vs = map vshape vs' -> starts t vs b = starts t vs' b.
Proof.
  induction vs as [|v vs IH]; intros [|v' vs'] b H; try discriminate; [reflexivity|]. injection H as H1 H2. cbn [starts].
  rewrite (IH vs' (b + cells t v) H2). unfold cells, vsize. now rewrite H1.
Qed.
Lemma map_replace {A B} (f : A -> B) : forall l k x y, nth_error l k = Some y -> f x = f y -> map f (replace_nth l k x) = map f l.
Proof.
  induction l as [|z l IH]; intros [|k] x y H E; cbn [nth_error replace_nth map] in *; try discriminate.
  - injection H as ->. now rewrite E.
  - f_equal. now apply (IH k x y).
Qed.
Lemma put_shape new : forall q v, vshape (put v q new) = vshape v.
Proof.
  induction q as [|i|q IH|j q IH]; intros [bs|xs|v|vs]; cbn [put vshape]; try reflexivity.
  - unfold len. f_equal. f_equal. clear. generalize (N.to_nat i). induction xs as [|x xs IHx]; intros [|k]; cbn [replace_nth length]; auto.
  - apply IH.
  - destruct (nth_error vs j) as [v|] eqn:E; [|reflexivity]. cbn [vshape]. f_equal. apply (map_replace vshape vs j _ v E). apply IH.
Qed.
Lemma ctrls_shape : forall fs vs cs news, vok_flds fs vs cs -> map vshape (with_ctrls fs vs news) = map vshape vs.
Proof.
  induction fs as [|off f r IH|off f r IH|t r IH|f lf r IH]; intros vs cs news Hv; destruct vs as [|v vs]; try contradiction; try reflexivity.
  - destruct v; try contradiction. cbn [with_ctrls map vok_flds] in *. f_equal. eapply IH, (proj2 Hv).
  - destruct v; try contradiction. cbn [with_ctrls vok_flds] in *. destruct news as [|x news]; [reflexivity|]. cbn [map vshape]. f_equal. eapply IH, (proj2 Hv).
  - cbn [with_ctrls map vok_flds] in *. f_equal. eapply IH, (proj2 Hv).
  - destruct v; try contradiction. cbn [with_ctrls map vok_flds] in *. f_equal. eapply IH, (proj2 (proj2 Hv)).
Qed.
Lemma putsub_shape x : forall p t v t' v', subval t v p = Some (t', v') -> vshape x = vshape v' -> vshape (putsub v p x) = vshape v.
Proof.
  induction p as [| |p IH|j p IH]; intros t v t' v' H E; cbn [subval putsub] in *; try congruence.
  - destruct t; try discriminate. destruct v; try discriminate. cbn [vshape]. eapply IH; eauto.
  - destruct t as [| | |kd hs ha fs]; try discriminate. destruct v as [| | |vs]; try discriminate.
    destruct (varlen_field fs j) as [t0|]; try discriminate. destruct (nth_error vs j) as [u|] eqn:Eu; try discriminate.
    cbn [vshape]. f_equal. apply (map_replace vshape vs j _ u Eu). eapply IH; eauto.
Qed.
Lemma nth_replace_nth {A} (l : list A) i x j :
  nth_error (replace_nth l i x) j = if Nat.eq_dec i j then option_map (fun _ => x) (nth_error l j) else nth_error l j.
Proof. rewrite <- update_replace. apply nth_update. Qed.
(** Replacing the object at a place by one of the same shape keeps all shapes. *)
Lemma put_place_shape σ pl t v x h u : at_place σ pl = Some (t, v) -> vshape x = vshape v -> nth_error σ h = Some u ->
  exists u', nth_error (put_place σ pl x) h = Some u' /\ same_shape u u'.
Proof.
  intros Hp Ex Hu.
  assert (G : forall i y z, nth_error σ i = Some y -> same_shape y z -> exists u', nth_error (replace_nth σ i z) h = Some u' /\ same_shape u u').
  { intros i y z Hi Hz. rewrite nth_replace_nth. destruct (Nat.eq_dec i h) as [->|_].
    - rewrite Hi. assert (u = y) by congruence. subst u. exists z. auto.
    - exists u. split; [exact Hu|apply same_shape_refl]. }
  destruct pl as [i p|i k p|i b o p]; cbn [at_place put_place] in *.
  - destruct (nth_error σ i) as [[t0 v0|t0 v0|t0 c vs old|]|] eqn:Ei; try discriminate;
      (eapply G; [exact Ei|]; cbn [same_shape]; split; [reflexivity|]; symmetry; eapply putsub_shape; eauto).
  - destruct (nth_error σ i) as [[t0 v0|t0 v0|t0 c vs old|]|] eqn:Ei; try discriminate. destruct (nth_error vs k) as [v0|] eqn:Ek; [|discriminate].
    eapply G; [exact Ei|]. cbn [same_shape]. repeat split. symmetry. apply (map_replace vshape vs k _ v0 Ek). eapply putsub_shape; eauto.
  - destruct (nth_error σ i) as [[t0 v0|t0 v0|t0 c vs old|]|] eqn:Ei; try discriminate. destruct (b || c)%bool; [|discriminate].
    destruct (index_of o (starts t0 vs 0)) as [k|]; [|discriminate]. destruct (nth_error vs k) as [v0|] eqn:Ek; [|discriminate].
    eapply G; [exact Ei|]. cbn [same_shape]. repeat split. symmetry. apply (map_replace vshape vs k _ v0 Ek). eapply putsub_shape; eauto.
Qed.
(** ** values *)
Lemma subval_diverge x : forall p p' t v t' v', diverge p p' -> subval t v p = Some (t', v') -> subval t (putsub v p x) p' = subval t v p'.
Proof.
  induction p as [|i|p IH|j p IH]; intros p' t v t' v' Hd H; inversion Hd; subst; cbn [subval putsub] in *.
  - destruct t; try discriminate. destruct v; try discriminate. eapply IH; eauto.
  - destruct t as [| | |kd hs ha fs]; try discriminate. destruct v as [| | |vs]; try discriminate.
    destruct (varlen_field fs j) as [t0|]; [|discriminate]. destruct (nth_error vs j) as [u|] eqn:Eu; [|discriminate].
    rewrite nth_replace_nth. destruct (Nat.eq_dec j j0); [contradiction|reflexivity].
  - destruct t as [| | |kd hs ha fs]; try discriminate. destruct v as [| | |vs]; try discriminate.
    destruct (varlen_field fs j) as [t0|]; [|discriminate]. destruct (nth_error vs j) as [u|] eqn:Eu; [|discriminate].
    rewrite nth_replace_nth. destruct (Nat.eq_dec j j); [|congruence]. rewrite Eu. cbn [option_map]. eapply IH; eauto.
Qed.
Lemma subval_put x : forall p t v t' v', subval t v p = Some (t', v') -> subval t (putsub v p x) p = Some (t', x).
Proof.
  induction p as [|i|p IH|j p IH]; intros t v t' v' H; cbn [subval putsub] in *; try discriminate.
  - now injection H as <- <-.
  - destruct t; try discriminate. destruct v; try discriminate. eapply IH; eauto.
  - destruct t as [| | |kd hs ha fs]; try discriminate. destruct v as [| | |vs]; try discriminate.
    destruct (varlen_field fs j) as [t0|]; [|discriminate]. destruct (nth_error vs j) as [u|] eqn:Eu; [|discriminate].
    rewrite nth_replace_nth. destruct (Nat.eq_dec j j); [|congruence]. rewrite Eu. cbn [option_map]. eapply IH; eauto.
Qed.
Lemma putsub_self : forall p t v t' v', subval t v p = Some (t', v') -> putsub v p v' = v.
Proof.
  induction p as [| |p IH|j p IH]; intros t v t' v' H; cbn [subval putsub] in *; try congruence.
  - destruct t; try discriminate. destruct v; try discriminate. f_equal. eapply IH; eauto.
  - destruct t as [| | |kd1 hs1 ha1 fs1]; try discriminate. destruct v as [| | |us1]; try discriminate.
    destruct (varlen_field fs1 j) as [t0|]; try discriminate. destruct (nth_error us1 j) as [u|] eqn:Eu; try discriminate.
    f_equal. rewrite (IH _ _ _ _ H). now apply replace_same.
Qed.
Lemma put_self σ pl t v : at_place σ pl = Some (t, v) -> put_place σ pl v = σ.
Proof.
  intros Hp. destruct pl as [h p|h k p|h u o p]; cbn [at_place put_place] in *.
  - destruct (nth_error σ h) as [[t0 x|t0 x|t0 c us old|]|] eqn:Eh; try discriminate; rewrite (putsub_self _ _ _ _ _ Hp); now apply replace_same.
  - destruct (nth_error σ h) as [[t0 x|t0 x|t0 c us old|]|] eqn:Eh; try discriminate. destruct (nth_error us k) as [x|] eqn:Ek; try discriminate.
    rewrite (putsub_self _ _ _ _ _ Hp), (replace_same us k x Ek). now apply replace_same.
  - destruct (nth_error σ h) as [[t0 x|t0 x|t0 c us old|]|] eqn:Eh; try discriminate. destruct (u || c)%bool; [|discriminate].
    destruct (index_of o _) as [k|]; [|discriminate]. destruct (nth_error us k) as [x|] eqn:Ek; try discriminate.
    rewrite (putsub_self _ _ _ _ _ Hp), (replace_same us k x Ek). now apply replace_same.
Qed.
(** The object at a place as owner, element, path. *)
Definition at_where (σ : list aval) (x : nat * option nat * path) : option (vty * vval) :=
  match x with
  | (h, None, p) => match nth_error σ h with Some (ABox t v) | Some (AOwn t v) => subval t v p | _ => None end
  | (h, Some k, p) => match nth_error σ h with Some (ASeq t _ vs _) => match nth_error vs k with Some v => subval t v p | None => None end | _ => None end
  end.
Definition put_where (σ : list aval) (x : nat * option nat * path) (new : vval) : list aval :=
  match x with
  | (h, None, p) => put_place σ (PlObj h p) new
  | (h, Some k, p) => put_place σ (PlElem h k p) new
  end.
Lemma at_where_ok σ pl t v : at_place σ pl = Some (t, v) ->
  exists x, whereabouts σ pl = Some x /\ at_where σ x = Some (t, v) /\ forall new, put_place σ pl new = put_where σ x new.
Proof.
  intros Hp. destruct pl as [h p|h k p|h u o p]; cbn [at_place whereabouts put_place] in *.
  - exists (h, None, p). cbn [at_where put_where put_place]. auto.
  - exists (h, Some k, p). cbn [at_where put_where put_place]. auto.
  - destruct (nth_error σ h) as [[t0 x|t0 x|t0 c us old|]|] eqn:Eh; try discriminate. destruct (u || c)%bool; [|discriminate].
    destruct (index_of o _) as [k|]; [|discriminate]. exists (h, Some k, p). cbn [at_where put_where put_place option_map]. rewrite Eh. auto.
Qed.
Definition aways (x y : nat * option nat * path) : Prop :=
  match x, y with (h, k, p), (h', k', p') => h <> h' \/ k <> k' \/ diverge p p' end.
Lemma at_put_away σ x y t v new : at_where σ x = Some (t, v) -> aways x y -> at_where (put_where σ x new) y = at_where σ y.
Proof.
  destruct x as [[h k] p], y as [[h' k'] p']. cbn [aways]. intros Hx Ha. destruct k as [k|]; cbn [at_where put_where put_place] in *.
  - destruct (nth_error σ h) as [[t0 x|t0 x|t0 c us old|]|] eqn:Eh; try discriminate. destruct (nth_error us k) as [u|] eqn:Ek; [|discriminate].
    assert (Hn : nth_error (replace_nth σ h (ASeq t0 c (replace_nth us k (putsub u p new)) old)) h' =
                 if Nat.eq_dec h h' then Some (ASeq t0 c (replace_nth us k (putsub u p new)) old) else nth_error σ h').
    { rewrite nth_replace_nth. destruct (Nat.eq_dec h h') as [<-|]; [now rewrite Eh|reflexivity]. }
    destruct k' as [k'|]; cbn [at_where]; rewrite Hn; destruct (Nat.eq_dec h h') as [<-|]; try reflexivity; rewrite Eh; [|reflexivity].
    rewrite nth_replace_nth. destruct (Nat.eq_dec k k') as [<-|]; [|reflexivity]. rewrite Ek. cbn [option_map].
    destruct Ha as [Ha|[Ha|Ha]]; [congruence|congruence|]. eapply subval_diverge; eauto.
  - assert (exists t0 u, (nth_error σ h = Some (ABox t0 u) \/ nth_error σ h = Some (AOwn t0 u)) /\ subval t0 u p = Some (t, v)) as (t0 & u & Eh & Hs).
    { destruct (nth_error σ h) as [[t0 x|t0 x|t0 c us old|]|] eqn:Eh; try discriminate; eauto. }
    destruct k' as [k'|]; destruct Eh as [Eh|Eh]; rewrite Eh; cbn [at_where]; rewrite nth_replace_nth; (destruct (Nat.eq_dec h h') as [<-|]; [|reflexivity]); rewrite Eh; cbn [option_map];
      try reflexivity; (destruct Ha as [Ha|[Ha|Ha]]; [congruence|congruence|]); eapply subval_diverge; eauto.
Qed.
Lemma at_put_same σ x t v new : at_where σ x = Some (t, v) -> at_where (put_where σ x new) x = Some (t, new).
Proof.
  destruct x as [[h k] p]. intros Hx. destruct k as [k|]; cbn [at_where put_where put_place] in *.
  - destruct (nth_error σ h) as [[t0 x|t0 x|t0 c us old|]|] eqn:Eh; try discriminate. destruct (nth_error us k) as [u|] eqn:Ek; [|discriminate].
    rewrite nth_replace_nth. destruct (Nat.eq_dec h h); [|congruence]. rewrite Eh. cbn [option_map]. rewrite nth_replace_nth. destruct (Nat.eq_dec k k); [|congruence].
    rewrite Ek. cbn [option_map]. eapply subval_put; eauto.
  - destruct (nth_error σ h) as [[t0 x|t0 x|t0 c us old|]|] eqn:Eh; try discriminate; rewrite nth_replace_nth; (destruct (Nat.eq_dec h h); [|congruence]); rewrite Eh; cbn [option_map]; eapply subval_put; eauto.
Qed.
(** ** shapes *)
Definition all_same (σ σ' : list aval) : Prop := forall h u, nth_error σ h = Some u -> exists u', nth_error σ' h = Some u' /\ same_shape u u'.
Lemma same_shape_trans u v w : same_shape u v -> same_shape v w -> same_shape u w.
Proof. destruct u, v, w; cbn; try tauto; intuition congruence. Qed.
Lemma all_same_refl σ : all_same σ σ.
Proof. intros h u H. exists u. split; [exact H|apply same_shape_refl]. Qed.
Lemma all_same_trans σ σ' σ'' : all_same σ σ' -> all_same σ' σ'' -> all_same σ σ''.
Proof. intros A B h u H. destruct (A h u H) as (u' & H' & S). destruct (B h u' H') as (u'' & H'' & S'). exists u''. split; [exact H''|]. eapply same_shape_trans; eauto. Qed.
Lemma whereabouts_same σ σ' pl t v : all_same σ σ' -> at_place σ pl = Some (t, v) -> whereabouts σ' pl = whereabouts σ pl.
Proof.
  intros HS Hp. destruct pl as [h p|h k p|h u o p]; cbn [whereabouts at_place] in *; try reflexivity.
  destruct (nth_error σ h) as [x|] eqn:Eh; [|discriminate]. destruct (HS h x Eh) as (x' & -> & Sx). destruct x as [t0 x|t0 x|t0 c us old|]; try discriminate.
  destruct x' as [| |t1 c1 us1 old1|]; try contradiction. destruct Sx as (<- & <- & Sx & _). now rewrite (starts_shape t0 us us1 0 Sx).
Qed.
Lemma at_place_same σ σ' pl t v x : all_same σ σ' -> at_place σ pl = Some (t, v) -> whereabouts σ pl = Some x -> at_place σ' pl = at_where σ' x.
Proof.
  intros HS Hp Hw. destruct pl as [h p|h k p|h b o p]; cbn [whereabouts at_place] in *; try (injection Hw as <-; reflexivity).
  destruct (nth_error σ h) as [u|] eqn:Eh; [|discriminate]. destruct (HS h u Eh) as (u' & E' & Su). rewrite E'. destruct u as [t0 x0|t0 x0|t0 c us old|]; try discriminate.
  destruct u' as [| |t1 c1 us1 old1|]; try contradiction. destruct Su as (<- & <- & Su & _). destruct (b || c)%bool; [|discriminate].
  rewrite <- (starts_shape t0 us us1 0 Su). destruct (index_of o (starts t0 us 0)) as [k|]; [|discriminate]. injection Hw as <-. cbn [at_where]. now rewrite E'.
Qed.
Lemma put_all_same σ pl t v x : at_place σ pl = Some (t, v) -> vshape x = vshape v -> all_same σ (put_place σ pl x).
Proof. intros Hp Hs h u Hu. eapply put_place_shape; eauto. Qed.
Lemma at_place_away σ pl pl' t v t' v' x : at_place σ pl = Some (t, v) -> vshape x = vshape v -> at_place σ pl' = Some (t', v') -> away σ pl pl' ->
  at_place (put_place σ pl x) pl' = Some (t', v').
Proof.
  intros Hp Hs Hp' Ha. pose proof (put_all_same σ pl t v x Hp Hs) as HS. unfold away in Ha.
  destruct (at_where_ok σ pl t v Hp) as (y & Ey & Ay & Py). destruct (at_where_ok σ pl' t' v' Hp') as (z & Ez & Az & _). rewrite Ey, Ez in Ha.
  rewrite (at_place_same _ _ _ _ _ _ HS Hp' Ez), Py, (at_put_away σ y z t v x Ay); [exact Az|].
  destruct y as [[? ?] ?], z as [[? ?] ?]. exact Ha.
Qed.
Lemma at_place_put σ pl t v x : at_place σ pl = Some (t, v) -> vshape x = vshape v -> at_place (put_place σ pl x) pl = Some (t, x).
Proof.
  intros Hp Hs. pose proof (put_all_same σ pl t v x Hp Hs) as HS. destruct (at_where_ok σ pl t v Hp) as (y & Ey & Ay & Py).
  rewrite (at_place_same _ _ _ _ _ _ HS Hp Ey), Py. exact (at_put_same σ y t v x Ay).
Qed.
Lemma away_same σ σ' pl pl' t v t' v' : all_same σ σ' -> at_place σ pl = Some (t, v) -> at_place σ pl' = Some (t', v') -> away σ pl pl' -> away σ' pl pl'.
Proof. intros HS H H'. unfold away. now rewrite (whereabouts_same _ _ _ _ _ HS H), (whereabouts_same _ _ _ _ _ HS H'). Qed.
(** ** the address of a leaf is determined by the shape *)
Lemma check_ref_same w w1 a n al : w_blocks w1 = w_blocks w -> check_ref a n al w = Ok tt w -> check_ref a n al w1 = Ok tt w1.
Proof.
  unfold check_ref, inb. intros ->. destruct (a =? 0); [discriminate|]. destruct (negb (a mod al =? 0)); [discriminate|]. destruct (negb _); [discriminate|reflexivity].
Qed.
Lemma elem_mut_same w w1 f a off n i l : w_blocks w1 = w_blocks w -> elem_mut f a off n i w = Ok l w -> elem_mut f a off n i w1 = Ok l w1.
Proof.
  intros Hb. unfold elem_mut. unfold bind. destruct (check_ref _ _ _ w) as [[] w0| |] eqn:E; try discriminate.
  assert (w0 = w) as -> by (unfold check_ref in E; repeat (destruct (_ : bool) in E; try discriminate); now injection E).
  rewrite (check_ref_same w w1 _ _ _ Hb E). destruct (i <? n); [|discriminate]. intros H. injection H as <-. reflexivity.
Qed.
Lemma locate_same_all :
  (forall t, wf_ty t -> forall w w1 a v v1 p l, w_blocks w1 = w_blocks w -> obj_at w t a v -> obj_at w1 t a v1 -> vshape v1 = vshape v ->
     locate t a p w = Ok l w -> locate t a p w1 = Ok l w1) /\
  (forall fs, wf_flds fs -> forall w w1 a vs vs1 cs cs1 pos A hs j p l, w_blocks w1 = w_blocks w ->
     hs <= pos -> hdr_in fs A hs ->
     vok_flds fs vs cs -> flds_place (w_blocks w) fs A a (sp_end fs (map vshape vs) pos) -> repr_flds (w_mem w) fs a vs pos ->
     vok_flds fs vs1 cs1 -> repr_flds (w_mem w1) fs a vs1 pos -> map vshape vs1 = map vshape vs ->
     locate_fld fs a (sp_tail fs (map vshape vs) pos) j p w = Ok l w -> locate_fld fs a (sp_tail fs (map vshape vs) pos) j p w1 = Ok l w1).
Proof.
  apply vty_flds_ind.
  - intros f Hwf w w1 a v v1 p l Hb Ho Ho1 Hs H. destruct p; try discriminate. cbn [locate ret] in *. now injection H as <-.
  - intros f k Hwf w w1 a v v1 p l Hb Ho Ho1 Hs H. destruct p; try discriminate. cbn [locate] in *.
    rewrite (bind_ok _ _ _ _ _ (calc_layout_ok _ w a v Hwf Ho)) in H. step (calc_layout_ok _ w1 a v1 Hwf Ho1). rewrite Hs.
    destruct (sp_lay _ _); try discriminate. eapply elem_mut_same; eauto.
  - intros t IH Hwf w w1 a v v1 p l Hb Ho Ho1 Hs H. destruct p; try discriminate.
    destruct Ho as (Hv & Hp & Hr), Ho1 as (Hv1 & Hp1 & Hr1). destruct v as [| |v|]; try contradiction. destruct v1 as [| |v1|]; try contradiction. cbn [locate vshape] in *.
    exact (IH Hwf w w1 a v v1 p l Hb (conj Hv (conj Hp Hr)) (conj Hv1 (conj Hp1 Hr1)) Hs H).
  - intros kd hs ha fs IH Hwf w w1 a v v1 p l Hb Ho Ho1 Hs H. destruct p as [| | |j p]; try discriminate.
    pose proof Ho as (Hv & Hp & Hr). pose proof Ho1 as (Hv1 & Hp1 & Hr1). destruct v as [| | |vs]; try contradiction. destruct v1 as [| | |vs1]; try contradiction.
    cbn [locate] in *. rewrite (bind_ok _ _ _ _ _ (calc_layout_ok _ w a _ Hwf Ho)) in H. step (calc_layout_ok _ w1 a _ Hwf Ho1). rewrite Hs. cbn [vshape sp_lay] in *. injection Hs as Hs.
    assert (Hge : hs <= sp_end fs (map vshape vs) hs) by (apply sp_end_ge, Hwf).
    destruct (rec_place kd hs ha fs (w_blocks w) a _ Hwf Hp Hge) as [Hfp Hh]. destruct Hwf as ((Q1 & Q2 & Q3 & Q4 & Q5) & Q6 & Q7).
    assert (Hh' : hdr_in fs (sp_align (TRec kd hs ha fs)) hs).
    { intros off g Hin. destruct (Q4 off g Hin) as (A1 & A2 & A3). repeat split; auto. cbn [sp_align]. lia. }
    exact (IH Q6 w w1 a vs vs1 _ _ hs _ hs j p l Hb (N.le_refl _) Hh' Hv Hfp Hr Hv1 Hr1 Hs H).
  - intros _ w w1 a vs vs1 cs cs1 pos A hs j p l _ _ _ _ _ _ _ _ _ H. destruct j; discriminate.
  - intros off f r IH [Hf Hwr] w w1 a vs vs1 cs cs1 pos A hs j p l Hb Hpos Hh Hv Hp Hr Hv1 Hr1 Hs H.
    destruct vs as [|[bs| | |] vs]; try contradiction. destruct vs1 as [|[bs1| | |] vs1]; try contradiction.
    cbn [vok_flds repr_flds map vshape sp_end sp_tail locate_fld head_fields] in *.
    destruct (fhdr_place _ (FNormal off f r) off f r A a _ eq_refl Hf ltac:(cbn [sp_falign]; lia) Hp
       (hdr_in_le _ _ _ (sp_end r (map vshape vs) pos) Hh ltac:(pose proof (sp_end_ge r Hwr (map vshape vs) pos); lia))) as (B1 & B2 & B3 & B4 & B5 & B6).
    assert (Hh' : hdr_in r A hs) by (eapply hdr_in_cons; [|exact Hh]; reflexivity). injection Hs as Hs.
    destruct j as [|j]; [destruct p; try discriminate; cbn [ret] in *; now injection H as <-|].
    exact (IH Hwr w w1 a vs vs1 cs cs1 pos A hs j p l Hb Hpos Hh' (proj2 Hv) B5 (proj2 Hr) (proj2 Hv1) (proj2 Hr1) Hs H).
  - intros off f r IH [Hf Hwr] w w1 a vs vs1 cs cs1 pos A hs j p l Hb Hpos Hh Hv Hp Hr Hv1 Hr1 Hs H.
    destruct vs as [|[bs| | |] vs]; try contradiction. destruct vs1 as [|[bs1| | |] vs1]; try contradiction.
    cbn [vok_flds repr_flds map vshape sp_end sp_tail locate_fld head_fields] in *.
    destruct (fhdr_place _ (FLength off f r) off f r A a _ eq_refl Hf ltac:(cbn [sp_falign]; lia) Hp
       (hdr_in_le _ _ _ (sp_end r (map vshape vs) pos) Hh ltac:(pose proof (sp_end_ge r Hwr (map vshape vs) pos); lia))) as (B1 & B2 & B3 & B4 & B5 & B6).
    assert (Hh' : hdr_in r A hs) by (eapply hdr_in_cons; [|exact Hh]; reflexivity). injection Hs as Hs.
    destruct j as [|j]; [discriminate|].
    exact (IH Hwr w w1 a vs vs1 cs cs1 pos A hs j p l Hb Hpos Hh' (proj2 Hv) B5 (proj2 Hr) (proj2 Hv1) (proj2 Hr1) Hs H).
  - intros t IHt r IH [Hwt Hwr] w w1 a vs vs1 cs cs1 pos A hs j p l Hb Hpos Hh Hv Hp Hr Hv1 Hr1 Hs H.
    destruct vs as [|u vs]; try contradiction. destruct vs1 as [|u1 vs1]; try contradiction.
    cbn [vok_flds repr_flds map sp_tail head_fields] in *. injection Hs as Hs0 Hs.
    destruct (fvar_place _ _ _ _ _ _ _ _ Hwt Hwr Hp) as (B1 & B2 & B3).
    destruct Hr as [R1 R2]. destruct Hv as [V1 V2]. destruct Hr1 as [R1' R2']. destruct Hv1 as [V1' V2']. rewrite Hs0 in R2'.
    pose proof (up_ge pos (sp_align t) (sp_align_pos _ Hwt)) as Hup.
    destruct j as [|j]; cbn [locate_fld] in *.
    + rewrite wadd_small in * by auto. pose proof (place_deref t w _ _ Hwt B2 (head_size_le t u Hwt V1)) as Ed.
      rewrite (bind_ok _ _ _ _ _ Ed) in H. step (check_ref_same w w1 _ _ _ Hb Ed).
      apply (IHt Hwt w w1 _ u u1 p l Hb); [exact (conj V1 (conj B2 R1))| |exact Hs0|exact H].
      split; [exact V1'|]. split; [|exact R1']. rewrite Hb. unfold vsize. rewrite Hs0. exact B2.
    + apply (IH Hwr w w1 a vs vs1 cs cs1 (up pos (sp_align t) + sp_size t (vshape u)) A hs j p l Hb ltac:(lia) Hh V2 B3 R2 V2' R2' Hs H).
  - intros f0 lf r IH (Hf & Hwr) w w1 a vs vs1 cs cs1 pos A hs j p l Hb Hpos Hh Hv Hp Hr Hv1 Hr1 Hs H.
    destruct vs as [|[|xs| |] vs]; try contradiction. destruct vs1 as [|[|xs1| |] vs1]; try contradiction.
    cbn [vok_flds repr_flds map vshape sp_tail head_fields locate_fld] in *. injection Hs as Hs0 Hs.
    destruct (farr_place _ _ _ _ _ _ _ _ _ Hf Hwr Hp) as ((B1 & B2 & B3 & B4) & B5).
    destruct Hr as [R1 R2]. destruct Hv as (Vx & Vn & V2). destruct Hr1 as [R1' R2']. destruct Hv1 as (Vx' & Vn' & V2'). rewrite Hs0 in R2'.
    pose proof (up_ge pos (f_align f0) (pow2_pos _ (proj1 Hf))) as Hup.
    destruct j as [|j]; [destruct p; try discriminate; eapply elem_mut_same; eauto|].
    exact (IH Hwr w w1 a vs vs1 cs cs1 (up pos (f_align f0) + len xs * f_size f0) A hs j p l Hb ltac:(lia) Hh V2 B5 R2 V2' R2' Hs H).
Qed.
Lemma locate_same t w w1 a v v1 p l : wf_ty t -> w_blocks w1 = w_blocks w -> obj_at w t a v -> obj_at w1 t a v1 -> vshape v1 = vshape v ->
  locate t a p w = Ok l w -> locate t a p w1 = Ok l w1.
Proof. intros Hwf. now apply (proj1 locate_same_all). Qed.
(** ** addresses of places *)
Lemma sub_addr_all :
  (forall t, wf_ty t -> forall w a v p t' v', obj_at w t a v -> subval t v p = Some (t', v') ->
     exists o, sub_off t (vshape v) p = Some o /\ subobject t a p w = Ok (t', a + o) w) /\
  (forall fs, wf_flds fs -> forall w a vs cs pos A hs j p t0 v0 t' v',
     hs <= pos -> hdr_in fs A hs ->
     vok_flds fs vs cs -> flds_place (w_blocks w) fs A a (sp_end fs (map vshape vs) pos) ->
     repr_flds (w_mem w) fs a vs pos ->
     varlen_field fs j = Some t0 -> nth_error vs j = Some v0 -> subval t0 v0 p = Some (t', v') ->
     exists o d, fld_off fs (map vshape vs) pos j = Some o /\ sub_off t0 (vshape v0) p = Some d /\
       subobject_fld fs a (sp_tail fs (map vshape vs) pos) j p w = Ok (t', a + (o + d)) w).
Proof.
  apply vty_flds_ind.
  - intros f Hwf w a v p t' v' Ho Hs. destruct p; try discriminate. injection Hs as <- <-. exists 0. rewrite N.add_0_r. auto.
  - intros f k Hwf w a v p t' v' Ho Hs. destruct p; try discriminate. injection Hs as <- <-. exists 0. rewrite N.add_0_r. auto.
  - intros t IH Hwf w a v p t' v' Ho Hs. destruct p; try discriminate; [injection Hs as <- <-; exists 0; rewrite N.add_0_r; auto|].
    destruct v as [| |v|]; try discriminate. destruct Ho as (Hv & Hp & Hr).
    exact (IH Hwf w a v p t' v' (conj Hv (conj Hp Hr)) Hs).
  - intros kd hs ha fs IH Hwf w a v p t' v' Ho Hs. destruct p as [| | |j p]; try discriminate; [injection Hs as <- <-; exists 0; rewrite N.add_0_r; auto|].
    destruct v as [| | |vs]; try discriminate. cbn [subval] in Hs.
    destruct (varlen_field fs j) as [t0|] eqn:Ef; [|discriminate]. destruct (nth_error vs j) as [v0|] eqn:Ev; [|discriminate].
    pose proof Ho as (Hv & Hp & Hr).
    assert (Hge : hs <= sp_end fs (map vshape vs) hs) by (apply sp_end_ge, Hwf).
    destruct (rec_place kd hs ha fs (w_blocks w) a _ Hwf Hp Hge) as [Hfp Hh].
    pose proof Hwf as HwfT. destruct Hwf as ((Q1 & Q2 & Q3 & Q4 & Q5) & Q6 & Q7).
    assert (Hh' : hdr_in fs (sp_align (TRec kd hs ha fs)) hs).
    { intros off g Hin. destruct (Q4 off g Hin) as (A1 & A2 & A3). repeat split; auto. cbn [sp_align]. lia. }
    destruct (IH Q6 w a vs _ hs _ hs j p t0 v0 t' v' (N.le_refl _) Hh' Hv Hfp Hr Ef Ev Hs) as (o & d & E1 & E2 & E).
    exists (o + d). split.
    { cbn [sub_off vshape]. rewrite Ef, nth_error_map, Ev. cbn [option_map]. rewrite E1, E2. reflexivity. }
    cbn [subobject]. step (calc_layout_ok (TRec kd hs ha fs) w a (VRec vs) HwfT Ho). cbn [vshape sp_lay]. exact E.
  - intros _ w a vs cs pos A hs j p t0 v0 t' v' _ _ _ _ _ Hf. destruct j; discriminate.
  - intros off f r IH [Hf Hwr] w a vs cs pos A hs j p t0 v0 t' v' Hpos Hh Hv Hp Hr Ef Ev Hs.
    destruct vs as [|[bs| | |] vs]; try contradiction. destruct j as [|j]; [discriminate|].
    cbn [vok_flds repr_flds map vshape sp_end sp_tail subobject_fld head_fields varlen_field nth_error fld_off] in *.
    destruct (fhdr_place _ (FNormal off f r) off f r A a _ eq_refl Hf ltac:(cbn [sp_falign]; lia) Hp
       (hdr_in_le _ _ _ (sp_end r (map vshape vs) pos) Hh ltac:(pose proof (sp_end_ge r Hwr (map vshape vs) pos); lia))) as (B1 & B2 & B3 & B4 & B5 & B6).
    assert (Hh' : hdr_in r A hs) by (eapply hdr_in_cons; [|exact Hh]; reflexivity).
    exact (IH Hwr w a vs cs pos A hs j p t0 v0 t' v' Hpos Hh' (proj2 Hv) B5 (proj2 Hr) Ef Ev Hs).
  - intros off f r IH [Hf Hwr] w a vs cs pos A hs j p t0 v0 t' v' Hpos Hh Hv Hp Hr Ef Ev Hs.
    destruct vs as [|[bs| | |] vs]; try contradiction. destruct j as [|j]; [discriminate|].
    cbn [vok_flds repr_flds map vshape sp_end sp_tail subobject_fld head_fields varlen_field nth_error fld_off] in *.
    destruct (fhdr_place _ (FLength off f r) off f r A a _ eq_refl Hf ltac:(cbn [sp_falign]; lia) Hp
       (hdr_in_le _ _ _ (sp_end r (map vshape vs) pos) Hh ltac:(pose proof (sp_end_ge r Hwr (map vshape vs) pos); lia))) as (B1 & B2 & B3 & B4 & B5 & B6).
    assert (Hh' : hdr_in r A hs) by (eapply hdr_in_cons; [|exact Hh]; reflexivity).
    exact (IH Hwr w a vs cs pos A hs j p t0 v0 t' v' Hpos Hh' (proj2 Hv) B5 (proj2 Hr) Ef Ev Hs).
  - intros t IHt r IH [Hwt Hwr] w a vs cs pos A hs j p t0 v0 t' v' Hpos Hh Hv Hp Hr Ef Ev Hs.
    destruct vs as [|u vs]; try contradiction.
    cbn [vok_flds repr_flds map sp_tail head_fields varlen_field] in *.
    destruct (fvar_place _ _ _ _ _ _ _ _ Hwt Hwr Hp) as (B1 & B2 & B3).
    destruct Hr as [R1 R2]. destruct Hv as [V1 V2].
    pose proof (up_ge pos (sp_align t) (sp_align_pos _ Hwt)) as Hup.
    destruct j as [|j]; cbn [nth_error] in Ev.
    + injection Ef as <-. injection Ev as <-.
      destruct (IHt Hwt w _ u p t' v' (conj V1 (conj B2 R1)) Hs) as (d & E1 & E).
      exists (up pos (sp_align t)), d. split; [reflexivity|]. split; [exact E1|]. rewrite N.add_assoc.
      cbn [subobject_fld]. rewrite wadd_small by auto. step (place_deref t w _ _ Hwt B2 (head_size_le t u Hwt V1)). exact E.
    + cbn [fld_off]. exact (IH Hwr w a vs cs (up pos (sp_align t) + sp_size t (vshape u)) A hs j p t0 v0 t' v' ltac:(lia) Hh V2 B3 R2 Ef Ev Hs).
  - intros f0 lf r IH (Hf & Hwr) w a vs cs pos A hs j p t0 v0 t' v' Hpos Hh Hv Hp Hr Ef Ev Hs.
    destruct vs as [|[|xs| |] vs]; try contradiction. destruct j as [|j]; [discriminate|].
    cbn [vok_flds repr_flds map vshape sp_tail head_fields varlen_field nth_error subobject_fld fld_off] in *.
    destruct (farr_place _ _ _ _ _ _ _ _ _ Hf Hwr Hp) as ((B1 & B2 & B3 & B4) & B5).
    destruct Hr as [R1 R2]. destruct Hv as (Vx & Vn & V2).
    pose proof (up_ge pos (f_align f0) (pow2_pos _ (proj1 Hf))) as Hup.
    exact (IH Hwr w a vs cs (up pos (f_align f0) + len xs * f_size f0) A hs j p t0 v0 t' v' ltac:(lia) Hh V2 B5 R2 Ef Ev Hs).
Qed.

Lemma resolve_addr w sl σ n pl t v :
  Inv w sl σ n -> at_place σ pl = Some (t, v) ->
  exists a, place_addr sl σ pl = Some a /\ resolve sl pl w = Ok (t, a) w.
Proof.
  intros HI Hp. pose proof HI as (Hbl & _). destruct pl as [h p|h k p|h u o p]; cbn [at_place resolve place_addr] in *.
  - destruct (nth_error σ h) as [u|] eqn:Eu; [|discriminate].
    destruct (at_h_vals w sl σ n h u HI Eu) as (s & [Es _] & Hrep). rewrite Es.
    destruct u as [t' x|t' x|t' c' vs old|]; try discriminate; destruct s as [t0 a0|t0 a0|t0 c s|]; cbn [rep] in Hrep; try contradiction;
      destruct Hrep as (<- & Hwf & Ho & _).
    + destruct (proj1 sub_addr_all t0 Hwf w a0 x p t v Ho Hp) as (o & E1 & E2). exists (a0 + o). rewrite E1. split; [reflexivity|].
      step (place_deref t0 w a0 _ Hwf (proj1 (proj2 Ho)) (head_size_le t0 x Hwf (proj1 Ho))). exact E2.
    + destruct (proj1 sub_addr_all t0 Hwf w a0 x p t v Ho Hp) as (o & E1 & E2). exists (a0 + o). rewrite E1. split; [reflexivity|].
      step (place_deref t0 w a0 _ Hwf (proj1 (proj2 Ho)) (head_size_le t0 x Hwf (proj1 Ho))). exact E2.
  - destruct (nth_error σ h) as [u|] eqn:Eu; [|discriminate].
    destruct (at_h_vals w sl σ n h u HI Eu) as (s & [Es _] & Hrep). rewrite Es.
    destruct u as [t' x|t' x|t0 c vs old|]; try discriminate. destruct s as [t1 a0|t1 a0|t1 c1 s|]; cbn [rep] in Hrep; try contradiction.
    destruct Hrep as ((-> & -> & Hwf & Hz) & Hat & Hbits).
    destruct (nth_error vs k) as [v0|] eqn:Ek; [|discriminate].
    destruct (seq_iter_at _ _ _ _ _ Hwf Hbl Hat) as (_ & _ & Hobjs). cbn [seq_iter it_ptr] in Hobjs.
    pose proof (objs_nth w t0 (s_ptr s) vs k v0 Hobjs Ek) as Ho. set (a0 := s_ptr s + total t0 (firstn k vs) * sp_align t0) in *.
    destruct (proj1 sub_addr_all t0 Hwf w a0 v0 p t v Ho Hp) as (o & E1 & E2). exists (a0 + o). rewrite E1. split; [reflexivity|].
    step (collect_addrs t0 c w s vs Hwf Hbl Hat). rewrite (nth_addrs t0 (s_ptr s) vs k v0 Ek). exact E2.
  - destruct (nth_error σ h) as [u0|] eqn:Eu; [|discriminate].
    destruct (at_h_vals w sl σ n h u0 HI Eu) as (s & [Es _] & Hrep). rewrite Es.
    destruct u0 as [t' x|t' x|t0 c vs old|]; try discriminate. destruct s as [t1 a0|t1 a0|t1 c1 s|]; cbn [rep] in Hrep; try contradiction.
    destruct Hrep as ((-> & -> & Hwf & Hz) & Hat & Hbits).
    destruct (u || c)%bool eqn:Euc; [|discriminate]. destruct (index_of o (starts t0 vs 0)) as [k|] eqn:Eo; [|discriminate]. apply index_of_nth in Eo.
    destruct (nth_error vs k) as [v0|] eqn:Ek; [|discriminate].
    assert (Eot : o = total t0 (firstn k vs)) by (destruct (starts_at _ _ _ _ Eo) as (v1 & _ & X); exact X).
    destruct (seq_iter_at _ _ _ _ _ Hwf Hbl Hat) as (_ & _ & Hobjs). cbn [seq_iter it_ptr] in Hobjs.
    pose proof (objs_nth w t0 (s_ptr s) vs k v0 Hobjs Ek) as Ho. rewrite <- Eot in Ho. set (a0 := s_ptr s + o * sp_align t0) in *.
    destruct (proj1 sub_addr_all t0 Hwf w a0 v0 p t v Ho Hp) as (d & E1 & E2). exists (a0 + d). rewrite E1. split; [reflexivity|].
    step (lookup_ok w t0 c s vs old u o k Hwf Hz Hbl Hat Hbits Euc Eo). exact E2.
Qed.
(** ** values of equal shape *)
Lemma varlen_vok : forall fs vs cs j t v, vok_flds fs vs cs -> varlen_field fs j = Some t -> nth_error vs j = Some v -> vok t v.
Proof.
  induction fs as [|off f r IH|off f r IH|t0 r IH|f lf r IH]; intros vs cs j t v Hv Hf Hn; destruct j as [|j]; try discriminate; destruct vs as [|u vs]; try discriminate;
    cbn [vok_flds varlen_field nth_error] in *.
  - destruct u; try contradiction. destruct Hv as [_ Hv]. eapply IH; [exact Hv|exact Hf|exact Hn].
  - destruct u; try contradiction. destruct Hv as [_ Hv]. eapply IH; [exact Hv|exact Hf|exact Hn].
  - injection Hf as <-. injection Hn as <-. apply Hv.
  - destruct Hv as [_ Hv]. eapply IH; [exact Hv|exact Hf|exact Hn].
  - destruct u; try contradiction. destruct Hv as (_ & _ & Hv). eapply IH; [exact Hv|exact Hf|exact Hn].
Qed.
Lemma subval_shape : forall p t v v' t1 u, vok t v -> vok t v' -> vshape v = vshape v' -> subval t v p = Some (t1, u) ->
  exists u', subval t v' p = Some (t1, u') /\ vshape u = vshape u'.
Proof.
  induction p as [|i|p IH|j p IH]; intros t v v' t1 u Hv Hv' Hs H; cbn [subval] in *.
  - injection H as <- <-. eauto.
  - discriminate.
  - destruct t as [| |t|]; try discriminate. destruct v as [| |v|]; try discriminate. destruct v' as [| |v'|]; try contradiction. exact (IH t v v' t1 u Hv Hv' Hs H).
  - destruct t as [| | |kd hs ha fs]; try discriminate. destruct v as [| | |vs]; try discriminate. destruct v' as [| | |vs']; try contradiction.
    destruct (varlen_field fs j) as [t0|] eqn:Ef; [|discriminate]. destruct (nth_error vs j) as [x|] eqn:Ex; [|discriminate].
    cbn [vshape] in Hs. injection Hs as Hs. pose proof (f_equal (fun l => nth_error l j) Hs) as Hj. cbn beta in Hj. rewrite !nth_error_map, Ex in Hj.
    destruct (nth_error vs' j) as [x'|] eqn:Ex'; [|discriminate]. injection Hj as Hj.
    eapply IH; [eapply varlen_vok; [exact Hv|exact Ef|exact Ex]|eapply varlen_vok; [exact Hv'|exact Ef|exact Ex']|exact Hj|exact H].
Qed.
Definition val_ok (u : aval) : Prop :=
  match u with ABox t v | AOwn t v => vok t v | ASeq t _ vs _ => Forall (vok t) vs | ADead => True end.
Lemma rep_val_ok w s u : rep w s u -> val_ok u.
Proof.
  destruct s as [t a|t a|t c s|], u as [t' x|t' x|t' c' vs old|]; cbn [rep val_ok]; try contradiction; auto.
  - intros (<- & _ & H & _). apply H.
  - intros (<- & _ & H & _). apply H.
  - intros ((<- & _ & Hwf & _) & Hat & _). destruct Hat as (_ & _ & _ & [[_ ->]|(_ & _ & _ & _ & He & _)]); [constructor|eapply elems_vok, He].
Qed.
Lemma firstn_shape k vs vs' : map vshape vs = map vshape vs' -> map vshape (firstn k vs) = map vshape (firstn k vs').
Proof. intros H. rewrite <- !firstn_map. now rewrite H. Qed.
(** A place keeps its address and type as long as pointer and shapes stay. *)
Lemma place_same sl σ sl' σ' pl t v u u' :
  nth_error σ (place_handle pl) = Some u -> nth_error σ' (place_handle pl) = Some u' -> same_shape u u' -> val_ok u -> val_ok u' ->
  nth_error sl' (place_handle pl) = nth_error sl (place_handle pl) ->
  at_place σ pl = Some (t, v) ->
  place_addr sl' σ' pl = place_addr sl σ pl /\ exists v', at_place σ' pl = Some (t, v') /\ vshape v' = vshape v.
Proof.
  intros Hu Hu' Hs Hv Hv' Hsl Hp. destruct pl as [h p|h k p|h b o p]; cbn [place_handle at_place place_addr] in *; rewrite Hu in *; rewrite Hu', Hsl.
  - destruct u as [t0 x|t0 x|t0 c vs old|], u' as [t1 x'|t1 x'|t1 c' vs' old'|]; cbn [same_shape val_ok] in *; try contradiction; try discriminate.
    + destruct Hs as [<- Hs]. destruct (subval_shape p t0 x x' t v Hv Hv' Hs Hp) as (v' & E & E'). rewrite Hs. split; [reflexivity|]. exists v'. auto.
    + destruct Hs as [<- Hs]. destruct (subval_shape p t0 x x' t v Hv Hv' Hs Hp) as (v' & E & E'). rewrite Hs. split; [reflexivity|]. exists v'. auto.
  - destruct u as [t0 x|t0 x|t0 c vs old|], u' as [t1 x'|t1 x'|t1 c' vs' old'|]; cbn [same_shape val_ok] in *; try contradiction; try discriminate.
    destruct Hs as (<- & <- & Hs & <-). destruct (nth_error vs k) as [x|] eqn:Ek; [|discriminate].
    pose proof (f_equal (fun l => nth_error l k) Hs) as Hk. cbn beta in Hk. rewrite !nth_error_map, Ek in Hk.
    destruct (nth_error vs' k) as [x'|] eqn:Ek'; [|discriminate]. injection Hk as Hk.
    rewrite Forall_forall in Hv, Hv'. destruct (subval_shape p t0 x x' t v (Hv _ (nth_error_In _ _ Ek)) (Hv' _ (nth_error_In _ _ Ek')) Hk Hp) as (v' & E & E').
    split; [|exists v'; auto]. destruct (nth_error sl h) as [[| |t2 c2 s|]|]; try reflexivity.
    now rewrite (total_shape t2 _ _ (firstn_shape k _ _ Hs)), Hk.
  - destruct u as [t0 x|t0 x|t0 c vs old|], u' as [t1 x'|t1 x'|t1 c' vs' old'|]; cbn [same_shape val_ok] in *; try contradiction; try discriminate.
    destruct Hs as (<- & <- & Hs & <-). destruct (b || c)%bool; [|discriminate]. rewrite <- (starts_shape t0 _ _ 0 Hs).
    destruct (index_of o (starts t0 vs 0)) as [k|] eqn:Eo; [|discriminate]. destruct (nth_error vs k) as [x|] eqn:Ek; [|discriminate].
    pose proof (f_equal (fun l => nth_error l k) Hs) as Hk. cbn beta in Hk. rewrite !nth_error_map, Ek in Hk.
    destruct (nth_error vs' k) as [x'|] eqn:Ek'; [|discriminate]. injection Hk as Hk.
    rewrite Forall_forall in Hv, Hv'. destruct (subval_shape p t0 x x' t v (Hv _ (nth_error_In _ _ Ek)) (Hv' _ (nth_error_In _ _ Ek')) Hk Hp) as (v' & E & E').
    split; [|exists v'; auto]. destruct (nth_error sl h) as [[| |t2 c2 s|]|] eqn:Esl; try reflexivity.
    rewrite <- (starts_shape t2 _ _ 0 Hs). destruct (index_of o (starts t2 vs 0)) as [k2|]; [|reflexivity].
    pose proof (f_equal (fun l => nth_error l k2) Hs) as Hk2. cbn beta in Hk2. rewrite !nth_error_map in Hk2.
    destruct (nth_error vs k2), (nth_error vs' k2); try discriminate; [|reflexivity]. injection Hk2 as ->. reflexivity.
Qed.

(** The same place in a later state. *)
Lemma resolve_inv_same w sl σ n w' σ' n' pl t v a : Inv w sl σ n -> Inv w' sl σ' n' -> all_same σ σ' -> at_place σ pl = Some (t, v) -> resolve sl pl w = Ok (t, a) w ->
  resolve sl pl w' = Ok (t, a) w'.
Proof.
  intros HI HI' HS Hp Hr.
  destruct (resolve_addr w sl σ n pl t v HI Hp) as (a0 & E1 & E2). rewrite Hr in E2. injection E2 as <-.
  assert (exists u, nth_error σ (place_handle pl) = Some u) as (u & Hu) by (destruct pl; cbn [at_place place_handle] in *; destruct (nth_error σ h); try discriminate; eauto).
  destruct (HS _ _ Hu) as (u' & Hu' & Su).
  destruct (at_h_vals w sl σ n _ u HI Hu) as (s & _ & Hrep). destruct (at_h_vals w' sl σ' n' _ u' HI' Hu') as (s' & _ & Hrep').
  destruct (place_same sl σ sl σ' pl t v u u' Hu Hu' Su (rep_val_ok _ _ _ Hrep) (rep_val_ok _ _ _ Hrep') eq_refl Hp) as (Ea & v' & Hp' & _).
  destruct (resolve_addr w' sl σ' n' pl t v' HI' Hp') as (a1 & E3 & E4). rewrite Ea, E1 in E3. injection E3 as <-. exact E4.
Qed.
