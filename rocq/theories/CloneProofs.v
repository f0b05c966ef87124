(** CloneProofs.v - vclone produces the initializer of the leafwise clone. *)
From Verif Require Export Strip.

(** The initializer only borrows, from the range of [n] bytes at [a]. *)
Definition within_src (w : world) (A k : N) (bl' : list block) (m : N -> cell) (D n : N) : Prop :=
  live bl' A k /\ (forall x, A <= x < A + k -> m x = w_mem w x) /\ apart A k D n.
Definition csrc (w : world) (A k : N) (t : vty) (i : init) : Prop :=
  iboxes t i = [] /\ iowned t i = [] /\ forall bl bl' m D n, within_src w A k bl' m D n -> isrc bl bl' m D n t i.
Definition csrcs (w : world) (A k : N) (fs : flds) (is_ : list init) : Prop :=
  iboxes_flds fs is_ = [] /\ iowned_flds fs is_ = [] /\ forall bl bl' m D n, within_src w A k bl' m D n -> isrc_flds bl bl' m D n fs is_.
Lemma within_sub w A k a n bl' m D d : within_src w A k bl' m D d -> A <= a -> a + n <= A + k -> within_src w a n bl' m D d.
Proof.
  intros (H1 & H2 & H3) Ha Hn. split; [|split].
  - replace a with (A + (a - A)) by lia. eapply live_sub; [exact H1|lia].
  - intros x Hx. apply H2. lia.
  - unfold apart in *. lia.
Qed.
Lemma csrc_wide w A k a n t i : csrc w a n t i -> A <= a -> a + n <= A + k -> csrc w A k t i.
Proof. intros (H1 & H2 & H3) Ha Hn. repeat split; auto. intros bl bl' m D d Hw. apply H3. eapply within_sub; eauto. Qed.
(** A sub-range of an array in memory. *)
Lemma slice_src_ok f k a bl m vs : fty_ok f -> elems_ok f vs -> len vs = k -> k < W -> a <> 0 -> a mod f_align f = 0 ->
  a + k * f_size f < W -> live bl a (k * f_size f) -> rd m a (k * f_size f) = concat vs ->
  src_ok bl m (tslice f k) a (VRec [VArr vs]) /\ vsize (tslice f k) (VRec [VArr vs]) = k * f_size f.
Proof.
  intros Hf He Hk HW A0 Am AW Al Ar.
  assert (Hpos : 0 < f_align f) by (apply pow2_pos, Hf).
  assert (Hu : up 0 (f_align f) = 0) by (unfold up; rewrite N.div_small by lia; reflexivity).
  assert (Es : vsize (tslice f k) (VRec [VArr vs]) = k * f_size f).
  { unfold vsize, tslice. cbn [vshape map sp_size sp_end]. rewrite Hu, Hk. apply N.add_0_l. }
  split; [|exact Es]. split.
  - rewrite Es. split; [exact A0|]. split; [|split; [exact AW|exact Al]].
    unfold tslice. cbn [sp_align sp_falign]. replace (N.max 1 (N.max (f_align f) 1)) with (f_align f) by lia. exact Am.
  - cbn [tslice repr repr_flds]. rewrite Hu, Hk, N.add_0_r. split; [exact Ar|exact I].
Qed.

Lemma gen_clone f xs :
  snd (gen_run (map (fun v => ([EClone v], f_clone f v)) xs)) = clone_all f xs /\
  (clone_all f xs <> None -> fst (gen_run (map (fun v => ([EClone v], f_clone f v)) xs)) = map EClone xs).
Proof.
  induction xs as [|x xs [IH1 IH2]]; cbn [map gen_run clone_all]; [split; auto|].
  destruct (f_clone f x) as [y|]; cbn [fst snd]; [|split; [auto|congruence]].
  rewrite IH1. split; [reflexivity|]. intros H. rewrite IH2; [reflexivity|]. destruct (clone_all f xs); [discriminate|exfalso; apply H; reflexivity].
Qed.

Lemma gen_clone_panic f xs : clone_all f xs = None ->
  exists k, ((k < length xs)%nat /\ first_none (map (f_clone f) xs) k) /\ fst (gen_run (map (fun v => ([EClone v], f_clone f v)) xs)) = map EClone (firstn (S k) xs).
Proof.
  induction xs as [|x xs IH]; cbn [map gen_run clone_all]; [discriminate|].
  destruct (f_clone f x) as [y|] eqn:Ey; cbn [fst].
  - intros H. destruct (clone_all f xs); [discriminate|]. destruct (IH eq_refl) as (k & (Hk & Hn & Hf) & E). exists (S k). rewrite E. split; [|reflexivity].
    split; [cbn; lia|]. split; [exact Hn|]. intros [|j] Hj; cbn [nth_error]; [eauto|apply Hf; lia].
  - intros _. exists 0%nat. split; [|reflexivity]. split; [cbn; lia|]. split; [reflexivity|intros j Hj; lia].
Qed.
(** The leaves of the clone are the clones of the leaves. *)
Lemma clone_leaves :
  (forall t v v', clone_val t v = Some v' -> map Some (vleaves v') = leaf_clones t v) /\
  (forall fs vs vs', clone_vals fs vs = Some vs' -> map Some (concat (map vleaves vs')) = leaf_clones_flds fs vs).
Proof.
  assert (Ha : forall f xs ys, clone_all f xs = Some ys -> map Some ys = map (f_clone f) xs).
  { intros f. induction xs as [|x xs IH]; intros ys H; cbn [clone_all map] in *; [injection H as <-; reflexivity|].
    destruct (f_clone f x) as [y|]; [|discriminate]. destruct (clone_all f xs) as [r|]; [|discriminate]. injection H as <-. cbn [map]. now rewrite (IH r eq_refl). }
  apply vty_flds_ind.
  - intros f [bs| | |] v' H; try discriminate. cbn [clone_val leaf_clones] in *. destruct (f_clone f bs); [|discriminate]. injection H as <-. reflexivity.
  - intros f k [|xs| |] v' H; try discriminate. cbn [clone_val leaf_clones] in *. destruct (clone_all f xs) eqn:E; [|discriminate]. injection H as <-. cbn [vleaves]. now apply Ha.
  - intros t IH [| |v|] v' H; try discriminate. cbn [clone_val leaf_clones] in *. destruct (clone_val t v) eqn:E; [|discriminate]. injection H as <-. cbn [vleaves]. now apply IH.
  - intros kd hs ha fs IH [| | |vs] v' H; try discriminate. cbn [clone_val leaf_clones] in *. destruct (clone_vals fs vs) eqn:E; [|discriminate]. injection H as <-. cbn [vleaves]. now apply IH.
  - intros [|v vs] vs' H; [|discriminate]. injection H as <-. reflexivity.
  - intros off f r IH vs vs' H. discriminate.
  - intros off f r IH vs vs' H. discriminate.
  - intros t IHt r IH [|v vs] vs' H; [discriminate|]. cbn [clone_vals leaf_clones_flds] in *. destruct (clone_val t v) as [v1|] eqn:E1; [|discriminate].
    destruct (clone_vals r vs) as [vs1|] eqn:E2; [|discriminate]. injection H as <-. cbn [map concat]. now rewrite map_app, (IHt _ _ E1), (IH _ _ E2).
  - intros f lf r IH vs vs' H. discriminate.
Qed.
Lemma leaf_clones_length :
  (forall t v, clonable t -> vok t v -> length (leaf_clones t v) = length (vleaves v)) /\
  (forall fs vs cs, clonable_flds fs -> vok_flds fs vs cs -> length (leaf_clones_flds fs vs) = length (concat (map vleaves vs))).
Proof.
  apply vty_flds_ind.
  - intros f [bs| | |] _ H; try contradiction. reflexivity.
  - intros f k [|xs| |] _ H; try contradiction. cbn. apply map_length.
  - intros t IH [| |v|] Hc H; try contradiction. cbn [leaf_clones vleaves]. exact (IH v Hc H).
  - intros kd hs ha fs IH [| | |vs] [_ Hc] H; try contradiction. cbn [leaf_clones vleaves]. eapply IH; eauto.
  - intros [|v vs] cs _ H; [reflexivity|contradiction].
  - contradiction.
  - contradiction.
  - intros t IHt r IH [|v vs] cs [H1 H2] H; [contradiction|]. destruct H as [Hv Hr]. cbn [leaf_clones_flds map concat]. rewrite !app_length. f_equal; [now apply IHt|eapply IH; eauto].
  - contradiction.
Qed.
Lemma first_none_left {A} (l l' : list (option A)) k : first_none l k -> first_none (l ++ l') k.
Proof.
  intros [H1 H2]. assert (k < length l)%nat by (apply nth_error_Some; congruence). split; [now rewrite nth_error_app1|].
  intros j Hj. rewrite nth_error_app1 by lia. now apply H2.
Qed.
Lemma first_none_right {A} (l' : list (option A)) m k n : first_none l' k -> n = length m -> first_none (map Some m ++ l') (n + k).
Proof.
  intros [H1 H2] ->. split.
  - rewrite nth_error_app2; rewrite map_length; [|lia]. now replace (length m + k - length m)%nat with k by lia.
  - intros j Hj. destruct (Nat.lt_ge_cases j (length m)) as [Hl|Hl].
    + rewrite nth_error_app1 by now rewrite map_length. rewrite nth_error_map. destruct (nth_error m j) as [y|] eqn:E; [exists y; reflexivity|]. apply nth_error_None in E. lia.
    + rewrite nth_error_app2; rewrite map_length; [|lia]. apply H2. lia.
Qed.
Lemma concat_nil_rev {A} (l : list (list A)) : Forall (eq []) l -> concat (rev l) = [].
Proof.
  intros H. apply Forall_rev in H. revert H. generalize (rev l) as r. clear. induction 1 as [|x l <- H IH]; [reflexivity|exact IH].
Qed.

Lemma vclone_all :
  (forall t, wf_ty t -> clonable t -> forall w a v, obj_at w t a v ->
     exists i, vclone t a w = Ok (strip i) w /\ iwt t i /\ csrc w a (vsize t v) t i /\ ishape t i = vshape v /\
       ival t i = clone_val t v /\ (clone_val t v <> None -> fst (irun t i) = map EClone (vleaves v)) /\
       idrop t i = [] /\
       (clone_val t v = None -> exists k, ((k < length (vleaves v))%nat /\ first_none (leaf_clones t v) k) /\ fst (irun t i) = map EClone (firstn (S k) (vleaves v))) /\
       noaddr i = clone_init t v) /\
  (forall fs, wf_flds fs -> clonable_flds fs -> forall w a vs cs pos A,
     vok_flds fs vs cs -> flds_place (w_blocks w) fs A a (sp_end fs (map vshape vs) pos) ->
     repr_flds (w_mem w) fs a vs pos ->
     exists is_, vclone_flds fs a (sp_tail fs (map vshape vs) pos) w = Ok (map strip is_) w /\ iwt_flds fs is_ /\ csrcs w a (sp_end fs (map vshape vs) pos) fs is_ /\
       (forall cs', ishapes fs is_ cs' = map vshape vs) /\ (forall cs', ivals fs is_ cs' = clone_vals fs vs) /\
       (forall kd cs' temps, clone_vals fs vs <> None -> fst (fruns kd fs is_ cs' temps) = map EClone (concat (map vleaves vs))) /\
       Forall (eq []) (idrops fs is_) /\
       (forall cs' temps, clone_vals fs vs = None -> exists k, ((k < length (concat (map vleaves vs)))%nat /\ first_none (leaf_clones_flds fs vs) k) /\
          fst (fruns KTuple fs is_ cs' temps) = map EClone (firstn (S k) (concat (map vleaves vs)))) /\
       map noaddr is_ = clone_inits fs vs).
Proof.
  apply vty_flds_ind.
  - intros f Hwf _ w a v (Hv & Hp & Hr). destruct v; try contradiction. cbn [vok repr] in *.
    destruct Hp as (P0 & Pm & PW & Pl). unfold vsize in Pl; cbn [vshape sp_size sp_align] in *.
    exists (IFixedCloneAt a bs). split; [cbn [vclone]; now step (check_ref_ok w a (f_size f) (f_align f) P0 Pm Pl)|].
    split; [exact Hv|]. split.
    { split; [reflexivity|]. split; [reflexivity|]. intros bl bl' m D n (W1 & W2 & W3). cbn [isrc].
      unfold vsize in *. cbn [vshape sp_size] in *. split; [|exact W3]. split; [repeat split; auto|].
      cbn [repr]. rewrite <- Hr. now apply rd_ext. } split; [reflexivity|]. split; [reflexivity|]. split; [reflexivity|]. split; [reflexivity|].
    split; [|reflexivity]. cbn [clone_val leaf_clones]. intros En. exists 0%nat. split; [|reflexivity]. split; [cbn; lia|]. split; [|intros j Hj; lia].
    cbn [nth_error]. destruct (f_clone f bs); [discriminate|reflexivity].
  - intros f k Hwf _ w a v Ho. pose proof Ho as (Hv & Hp & Hr). destruct v as [|xs| |]; try contradiction.
    set (off := up (len_size k) (f_align f)). exists (ISized (len xs) (ACloneAt (a + off) (len xs) xs)). split.
    + cbn [vclone].
      assert (El : load_len k a w = Ok (len xs) w).
      { destruct Hp as (P0 & Pm & PW & Pl). cbn [sp_align repr vok] in *. unfold vsize in *; cbn [vshape sp_size] in *.
        pose proof (up_ge (len_size k) (f_align f) (pow2_pos _ (proj1 Hwf))).
        apply load_len_ok; auto; try tauto.
        - eapply pow2_mod; [apply len_size_pow2| |apply N.le_max_l|exact Pm]. apply pow2_max; [apply len_size_pow2|apply Hwf].
        - eapply live_pre; [exact Pl|]. lia. }
      step El. step (calc_layout_ok (TArray f k) w a (VArr xs) Hwf Ho). cbn [vshape sp_lay repr vok] in *.
      destruct (arr_place _ _ _ _ _ Hwf Hp) as (B1 & B2 & B3 & B4).
      fold off in B1, B2, B3, B4. fold off. rewrite wadd_small by auto. now step (check_ref_ok w _ _ _ B2 B3 B4).
    + cbn [vok] in Hv. destruct Hv as [He Hlt].
      assert (HW : len xs < W) by (eapply N.lt_le_trans; [exact Hlt|]; rewrite W_eq; destruct k; vm_compute; discriminate).
      split; [repeat split; auto|]. split.
      { split; [reflexivity|]. split; [reflexivity|]. intros bl bl' m D n Hw. cbn [isrc asrc].
        cbn [vshape] in Hp. destruct (arr_place _ _ _ _ _ Hwf Hp) as (B1 & B2 & B3 & B4). fold off in B1, B2, B3, B4.
        assert (Ev : vsize (TArray f k) (VArr xs) = off + len xs * f_size f) by reflexivity.
        rewrite Ev in Hw. apply (within_sub w a _ (a + off) (len xs * f_size f)) in Hw; [|lia|lia].
        destruct Hw as (W1 & W2 & W3). cbn [repr] in Hr. destruct Hr as [_ Hr]. fold off in Hr.
        destruct Hp as (_ & _ & PW & _). rewrite Ev in PW.
        destruct (slice_src_ok f (len xs) (a + off) bl' m xs) as [S1 S2]; auto; [lia| |].
        - rewrite <- Hr. now apply rd_ext.
        - rewrite S2. auto. }
      split; [reflexivity|].
      cbn [ival clone_val irun arun fst snd vleaves]. rewrite N.eqb_refl.
      destruct (gen_clone f xs) as [G1 G2]. rewrite G1. split; [reflexivity|].
      split; [intros H; apply G2; destruct (clone_all f xs); [discriminate|exfalso; apply H; reflexivity]|]. split; [reflexivity|].
      split; [|reflexivity]. intros H. apply gen_clone_panic. destruct (clone_all f xs); [discriminate|reflexivity].
  - intros t IH Hwf Hc w a v (Hv & Hp & Hr). destruct v as [| |v|]; try contradiction.
    destruct (IH Hwf Hc w a v (conj Hv (conj Hp Hr))) as (i & E & A1 & A2 & A3 & A4 & A5 & A6 & A7 & A8).
    exists (INew i). split; [cbn [vclone]; now step E|]. split; [exact A1|]. split; [exact A2|]. split; [exact A3|].
    cbn [ival clone_val irun fst vleaves]. rewrite A4. split; [reflexivity|]. split; [intros H; apply A5; destruct (clone_val t v); [discriminate|exfalso; apply H; reflexivity]|].
    split; [exact A6|]. split; [|cbn [noaddr clone_init]; now rewrite A8]. intros H. apply A7. destruct (clone_val t v); [discriminate|reflexivity].
  - intros kd hs ha fs IH Hwf [-> Hc] w a v Ho. pose proof Ho as (Hv & Hp & Hr). destruct v as [| | |vs]; try contradiction.
    assert (Hge : hs <= sp_end fs (map vshape vs) hs) by (apply sp_end_ge, Hwf).
    destruct (rec_place KTuple hs ha fs (w_blocks w) a _ Hwf Hp Hge) as [Hfp Hh].
    destruct (IH (proj1 (proj2 Hwf)) Hc w a vs _ hs _ Hv Hfp Hr) as (is_ & E & A1 & A2 & A3 & A4 & A5 & A6 & A7 & A8).
    exists (IRec is_). split.
    + cbn [vclone]. step (calc_layout_ok (TRec KTuple hs ha fs) w a (VRec vs) Hwf Ho). cbn [vshape sp_lay]. now step E.
    + split; [exact A1|]. split; [exact A2|]. cbn [ishape ival clone_val irun fst vleaves vshape]. rewrite A3, A4.
      split; [reflexivity|]. split; [reflexivity|]. split; [intros H; cbv zeta; apply A5; destruct (clone_vals fs vs); [discriminate|exfalso; apply H; reflexivity]|].
      split; [|split; [intros H; cbv zeta; apply A7; destruct (clone_vals fs vs); [discriminate|reflexivity]|cbn [noaddr clone_init]; now rewrite A8]].
      cbn [idrop]. rewrite <- (concat_nil_rev _ (Forall_rev A6)), rev_involutive. reflexivity.
  - intros _ _ w a vs cs pos A Hv Hp Hr. destruct vs; try contradiction. exists []. repeat split; try constructor. discriminate.
  - contradiction.
  - contradiction.
  - intros t IHt r IH [Hwt Hwr] [Hct Hcr] w a vs cs pos A Hv Hp Hr.
    destruct vs as [|v vs]; try contradiction. cbn [vok_flds repr_flds map sp_tail vclone_flds] in *.
    destruct (fvar_place _ _ _ _ _ _ _ _ Hwt Hwr Hp) as (B1 & B2 & B3).
    destruct Hr as [Hr1 Hr2]. destruct Hv as [Hv1 Hv2].
    destruct (IHt Hwt Hct w _ v (conj Hv1 (conj B2 Hr1))) as (i & E & A1 & A2 & A3 & A4 & A5 & A6 & A7 & A8).
    destruct (IH Hwr Hcr w a vs cs _ A Hv2 B3 Hr2) as (is_ & E' & C1 & C2 & C3 & C4 & C5 & C6 & C7 & C8).
    exists (i :: is_). split; [|split; [|split; [|split; [|split; [|split; [|split; [|split]]]]]]].
    + rewrite wadd_small by auto. step (place_deref t w _ _ Hwt B2 (head_size_le t v Hwt Hv1)). step E. now step E'.
    + split; auto.
    + cbn [sp_end]. apply (csrc_wide w a (sp_end r (map vshape vs) (up pos (sp_align t) + sp_size t (vshape v)))) in A2.
      * destruct A2 as (D1 & D2 & D3), C2 as (F1 & F2 & F3). unfold csrcs. cbn [iboxes_flds iowned_flds isrc_flds].
        rewrite D1, D2, F1, F2. repeat split; auto.
      * lia.
      * pose proof (sp_end_ge r Hwr (map vshape vs) (up pos (sp_align t) + sp_size t (vshape v))). unfold vsize. lia.
    + intros cs'. cbn [ishapes]. now rewrite A3, C3.
    + intros cs'. cbn [ivals clone_vals]. rewrite A4, C4. reflexivity.
    + intros kd cs' temps H. cbn [fruns clone_vals] in *.
      pose proof (proj1 irun_ival t i) as Ev. rewrite A4 in Ev.
      destruct (irun t i) as [e [v'|]]; cbn [fst snd] in *; rewrite <- Ev in *; [|congruence].
      cbn [map concat]. rewrite map_app. rewrite A5 by congruence. f_equal. apply C5.
      destruct (clone_vals r vs); [discriminate|exfalso; apply H; reflexivity].
    + cbn [idrops]. constructor; auto.
    + intros cs' temps H. cbn [fruns clone_vals map concat] in *.
      pose proof (proj1 irun_ival t i) as Ev. rewrite A4 in Ev.
      destruct (irun t i) as [e [v'|]]; cbn [fst snd] in *; rewrite <- Ev in *.
      * assert (Hn : clone_vals r vs = None) by (destruct (clone_vals r vs); [discriminate|reflexivity]).
        destruct (C7 cs' temps Hn) as (k & (Hk & Hf) & Ek). rewrite A5 by congruence. exists (length (vleaves v) + k)%nat.
        rewrite app_length. split; [split; [lia|]; cbn [leaf_clones_flds]; rewrite <- (proj1 clone_leaves t v v' (eq_sym Ev)); apply first_none_right; [exact Hf|];
          rewrite <- (proj1 leaf_clones_length t v Hct Hv1), <- (proj1 clone_leaves t v v' (eq_sym Ev)); apply map_length|]. rewrite Ek, <- map_app. f_equal.
        replace (S (length (vleaves v) + k)) with (length (vleaves v) + S k)%nat by lia. now rewrite firstn_app_2.
      * destruct (A7 eq_refl) as (k & (Hk & Hf) & Ek). cbn [unwinds]. rewrite (concat_nil_rev _ C6), app_nil_r. exists k.
        rewrite app_length. split; [split; [lia|now apply first_none_left]|]. rewrite Ek, firstn_app. replace (S k - length (vleaves v))%nat with 0%nat by lia.
        cbn [firstn]. now rewrite app_nil_r.
    + cbn [map clone_inits]. now rewrite A8, C8.
  - contradiction.
Qed.
Lemma vclone_ok t w a v : wf_ty t -> clonable t -> obj_at w t a v ->
  exists i, vclone t a w = Ok (strip i) w /\ iwt t i /\ csrc w a (vsize t v) t i /\ ishape t i = vshape v /\
    ival t i = clone_val t v /\ (clone_val t v <> None -> fst (irun t i) = map EClone (vleaves v)).
Proof.
  intros Hwf Hc Ho. destruct (proj1 vclone_all t Hwf Hc w a v Ho) as (i & H1 & H2 & H3 & H4 & H5 & H6 & _). exists i. auto 7.
Qed.
(** When a clone panics, the leaves up to and including the panicking one have been cloned, and
    nothing else has happened. *)
Lemma vclone_ok2 t w a v : wf_ty t -> clonable t -> obj_at w t a v ->
  exists i, vclone t a w = Ok (strip i) w /\ iwt t i /\ csrc w a (vsize t v) t i /\ ishape t i = vshape v /\
    ival t i = clone_val t v /\ (clone_val t v <> None -> fst (irun t i) = map EClone (vleaves v)) /\
    idrop t i = [] /\
    (clone_val t v = None -> exists k, ((k < length (vleaves v))%nat /\ first_none (leaf_clones t v) k) /\ fst (irun t i) = map EClone (firstn (S k) (vleaves v))).
Proof.
  intros Hwf Hc Ho. destruct (proj1 vclone_all t Hwf Hc w a v Ho) as (i & H1 & H2 & H3 & H4 & H5 & H6 & H7 & H8 & _).
  exists i. auto 9.
Qed.
Lemma vclone_ok3 t w a v : wf_ty t -> clonable t -> obj_at w t a v ->
  exists i, vclone t a w = Ok (strip i) w /\ noaddr i = clone_init t v /\ iwt t i /\ csrc w a (vsize t v) t i.
Proof.
  intros Hwf Hc Ho. destruct (proj1 vclone_all t Hwf Hc w a v Ho) as (i & H1 & H2 & H3 & _ & _ & _ & _ & _ & H9). exists i. auto.
Qed.
(** Clonable types have no length expressions. *)
Lemma clonable_lens :
  (forall t i, clonable t -> ilens t i = true) /\
  (forall fs is_ cs, clonable_flds fs -> ilens_flds fs is_ cs = true).
Proof.
  apply vty_flds_ind.
  - intros f i _. destruct i; reflexivity.
  - intros f k i _. destruct i; reflexivity.
  - intros t IH i Hc. destruct i; try reflexivity. cbn [ilens]. now apply IH.
  - intros kd hs ha fs IH i Hc. destruct i; try reflexivity. cbn [ilens]. now apply IH, Hc.
  - intros is_ cs _. destruct is_; reflexivity.
  - intros off f r IH is_ cs Hc. destruct is_; [reflexivity|]. contradiction.
  - intros off f r IH is_ cs Hc. destruct is_; [reflexivity|]. contradiction.
  - intros t IHt r IH is_ cs Hc. destruct is_; [reflexivity|]. cbn [ilens_flds]. destruct Hc as [H1 H2]. now rewrite IHt, IH.
  - intros f lf r IH is_ cs Hc. contradiction.
Qed.
