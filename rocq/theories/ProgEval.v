(** ProgEval.v - evaluating places and initializer expressions in a program. *)
From Verif Require Export ProgInv PropsSeq.

(** ** clones *)
(** What a clone refers to: objects inside the object that is cloned. *)
Lemma csrc_srcs w A k t i : wf_ty t -> iwt t i -> csrc w A k t i -> live (w_blocks w) A k ->
  Forall (fun s => let '(t', a, v, b) := s in
    b = false /\ obj_at w t' a v /\ (vsize t' v = 0 \/ A <= a /\ a + vsize t' v <= A + k)) (srcs t i).
Proof.
  intros Hwf Hi (C1 & C2 & C3) Hl.
  assert (G1 := C3 [] (w_blocks w) (w_mem w) 0 0 (conj Hl (conj (fun x _ => eq_refl) (or_intror (or_introl eq_refl))))).
  assert (Hl2 : live [mkB A k 1 true] A k) by (right; eexists; split; [left; reflexivity|]; cbn; lia).
  assert (G2 := C3 [] [mkB A k 1 true] (w_mem w) 0 0 (conj Hl2 (conj (fun x _ => eq_refl) (or_intror (or_introl eq_refl))))).
  apply isrc_srcs in G1. apply isrc_srcs in G2. pose proof (proj1 srcs_wt t Hwf i Hi) as G3. rewrite Forall_forall in *.
  intros (((t' & a) & v) & b) Hin. specialize (G1 _ Hin). specialize (G2 _ Hin). specialize (G3 _ Hin). cbn [src_cond src_wt] in *.
  destruct b.
  - exfalso. pose proof (proj1 srcs_boxes _ _ _ _ _ Hin) as H. rewrite C1 in H. exact H.
  - destruct G1 as [[P1 R1] _], G2 as [[(_ & _ & _ & P2) _] _]. split; [reflexivity|]. split; [split; [apply G3|split; auto]|].
    destruct P2 as [E|(c & [<-|[]] & L1 & L2)]; [left; exact E|right]. cbn in L1, L2. auto.
Qed.
(** The initializer of a clone produces the leafwise clone. *)
Lemma clone_init_val :
  (forall t v, clonable t -> vok t v -> ival t (clone_init t v) = clone_val t v) /\
  (forall fs vs cs, clonable_flds fs -> vok_flds fs vs cs -> forall cs', ivals fs (clone_inits fs vs) cs' = clone_vals fs vs).
Proof.
  apply vty_flds_ind.
  - intros f v _ Hv. destruct v; try contradiction. reflexivity.
  - intros f k v _ Hv. destruct v as [|xs| |]; try contradiction. cbn [clone_init ival clone_val arun fst snd].
    rewrite N.eqb_refl. now rewrite (proj1 (gen_clone f xs)).
  - intros t IH v Hc Hv. destruct v as [| |v|]; try contradiction. cbn [clone_init ival clone_val]. now rewrite IH.
  - intros kd hs ha fs IH v [-> Hc] Hv. destruct v as [| | |vs]; try contradiction. cbn [clone_init ival clone_val].
    now rewrite (IH vs _ Hc Hv).
  - intros vs cs _ Hv cs'. destruct vs; try contradiction. reflexivity.
  - contradiction.
  - contradiction.
  - intros t IHt r IH vs cs [Hct Hcr] Hv cs'. destruct vs as [|v vs]; try contradiction. destruct Hv as [Hv1 Hv2].
    cbn [clone_inits ivals clone_vals]. rewrite IHt by auto. rewrite (IH vs cs Hcr Hv2). reflexivity.
  - contradiction.
Qed.

(** ** places *)
Definition in_storage (s : slot) (v : aval) (a n : N) : Prop :=
  n = 0 \/ exists b, In b (hblocks s v) /\ b_base b <= a /\ a + n <= b_base b + b_size b.
Lemma storage_untouched w w' s v a n :
  wf_blocks (w_blocks w) -> rep w s v -> in_storage s v a n -> w_blocks w' = w_blocks w -> same_outside (w_mem w) (w_mem w') a n ->
  untouched w w' (hbases s v).
Proof.
  intros Hbl Hr Hs Hb Hm c Hc Hn. rewrite Hb. split; [exact Hc|]. intros x Hx. apply Hm.
  destruct Hs as [->|(b & Hin & H1 & H2)]; [lia|].
  assert (Hne : b_base b <> b_base c) by (intros E; apply Hn; unfold hbases; apply in_map_iff; eauto).
  pose proof (wf_blocks_disj _ _ _ Hbl (rep_blocks _ _ _ Hr _ Hin) Hc Hne) as Hd. unfold blocks_apart in Hd. lia.
Qed.
Lemma from_offset_within w t s vs old o :
  wf_ty t -> nonzst t -> wf_blocks (w_blocks w) -> seq_at w t true s vs -> bits_within w t s vs old ->
  (In o old -> In o (starts t vs 0)) ->
  (In o (starts t vs 0) /\ from_offset t s o w = Ok (s_ptr s + o * sp_align t) w) \/
  (~ In o (starts t vs 0) /\ from_offset t s o w = Panic w).
Proof.
  intros Hwf Hz Hbl Hat Hb Hold. pose proof (is_offset_valid_bit w t s vs o Hwf Hbl Hat) as Ev.
  assert (Hst : forall x, In x (starts t vs 0) -> x < s_occ s).
  { intros x Hx. pose proof Hat as (A1 & A2 & A3 & A4). rewrite A2.
    assert (Hv : Forall (vok t) vs) by (destruct A4 as [[_ ->]|(_ & _ & _ & _ & He & _)]; [constructor|eapply elems_vok, He]).
    pose proof (starts_lt t vs 0 x Hwf Hz Hv Hx). lia. }
  destruct (N.leb_spec (s_occ s) o) as [Hle|Hlt].
  - right. split; [intros Hin; specialize (Hst o Hin); lia|]. unfold from_offset. now rewrite (bind_ok _ _ _ _ _ Ev).
  - assert (Hr : 0 < s_cap s /\ o < 8 * bitmap_bytes (s_cap s) /\ o <> s_occ s).
    { destruct Hat as (_ & _ & A3 & _). destruct (bitmap_cover (s_cap s)). lia. }
    destruct Hr as (R1 & R2 & R3). destruct (Hb R1 o R2 R3) as [B1 B2].
    destruct (bit_at w t s o).
    + left. assert (Hin : In o (starts t vs 0)) by (destruct (B2 eq_refl); auto). split; [exact Hin|].
      unfold from_offset. rewrite (bind_ok _ _ _ _ _ Ev). eapply from_offset_unchecked_ok; eauto.
    + right. split; [intros Hin; specialize (B1 Hin); discriminate|]. unfold from_offset. now rewrite (bind_ok _ _ _ _ _ Ev).
Qed.
Lemma starts_nth t vs o : In o (starts t vs 0) -> exists k v, nth_error (starts t vs 0) k = Some o /\ nth_error vs k = Some v /\ o = total t (firstn k vs).
Proof.
  enough (G : forall b, In o (starts t vs b) -> exists k v, nth_error (starts t vs b) k = Some o /\ nth_error vs k = Some v /\ o = b + total t (firstn k vs)).
  { intros H. destruct (G 0 H) as (k & v & A & B & C). exists k, v. auto. }
  induction vs as [|x vs IH]; intros b; cbn [starts]; [intros []|]. intros [<-|H].
  - exists 0%nat, x. repeat split; auto. cbn. lia.
  - destruct (IH _ H) as (k & v & A & B & C). exists (S k), v. cbn [nth_error firstn total]. repeat split; auto. lia.
Qed.
Lemma index_of_nth o l k : index_of o l = Some k -> nth_error l k = Some o.
Proof.
  revert k. induction l as [|x l IH]; intros k; cbn [index_of]; [discriminate|]. destruct (N.eqb_spec o x) as [->|_].
  - intros H. injection H as <-. reflexivity.
  - destruct (index_of o l) as [m|]; cbn [option_map]; [|discriminate]. intros H. injection H as <-. cbn [nth_error]. now apply IH.
Qed.
Lemma starts_at t vs k o : nth_error (starts t vs 0) k = Some o -> exists v, nth_error vs k = Some v /\ o = total t (firstn k vs).
Proof.
  enough (G : forall b, nth_error (starts t vs b) k = Some o -> exists v, nth_error vs k = Some v /\ o = b + total t (firstn k vs)) by (intros H; destruct (G 0 H) as (v & A & B); eauto).
  revert k. induction vs as [|x vs IH]; intros [|k] b H; cbn [starts nth_error] in H; try discriminate.
  - injection H as <-. exists x. split; [reflexivity|]. cbn. lia.
  - destruct (IH k _ H) as (v & A & B). exists v. split; [exact A|]. cbn [firstn total]. lia.
Qed.
(** Looking up an element by its offset. *)
Lemma lookup_ok w t chk s vs old (u : bool) o k :
  wf_ty t -> nonzst t -> wf_blocks (w_blocks w) -> seq_at w t chk s vs -> (chk = true -> bits_within w t s vs old) ->
  (u || chk)%bool = true -> nth_error (starts t vs 0) k = Some o ->
  (if u then from_offset_unchecked t s o else if chk then from_offset t s o else undef UType) w = Ok (s_ptr s + o * sp_align t) w.
Proof.
  intros Hwf Hz Hbl Hat Hb Hu Hk. assert (Hin : In o (starts t vs 0)) by (eapply nth_error_In; eauto). destruct u.
  - eapply from_offset_unchecked_ok; eauto.
  - cbn in Hu. subst chk. destruct (from_offset_within w t s vs old o Hwf Hz Hbl Hat (Hb eq_refl) (fun _ => Hin)) as [[_ E]|[Hn _]]; [exact E|contradiction].
Qed.
Lemma resolve_ok w sl σ n pl t v :
  Inv w sl σ n -> at_place σ pl = Some (t, v) ->
  exists a s0 v0, resolve sl pl w = Ok (t, a) w /\ wf_ty t /\ obj_at w t a v /\
    at_h sl σ (place_handle pl) s0 v0 /\ in_storage s0 v0 a (vsize t v) /\
    forall w' v'', w_blocks w' = w_blocks w -> same_outside (w_mem w) (w_mem w') a (vsize t v) ->
      obj_at w' t a v'' -> vshape v'' = vshape v ->
      exists v1, put_place σ pl v'' = replace_nth σ (place_handle pl) v1 /\ rep w' s0 v1 /\ hblocks s0 v1 = hblocks s0 v0.
Proof.
  intros HI Hp. pose proof HI as (Hbl & _). destruct pl as [h p|h k p|h u o p]; cbn [at_place resolve place_handle put_place] in *.
  - destruct (nth_error σ h) as [u|] eqn:Eu; [|discriminate].
    destruct (at_h_vals w sl σ n h u HI Eu) as (s & Hah & Hrep). pose proof Hah as [Es _].
    assert (Hcase : exists t0 a0 v0, (s = SBox t0 a0 /\ u = ABox t0 v0 \/ s = SOwn t0 a0 /\ u = AOwn t0 v0) /\
        wf_ty t0 /\ obj_at w t0 a0 v0 /\ subval t0 v0 p = Some (t, v)).
    { destruct u as [t' x|t' x|t' c' vs old|]; try discriminate; destruct s as [t0 a0|t0 a0|t0 c s|]; cbn [rep] in Hrep; try contradiction;
        destruct Hrep as (<- & Hwf & Ho); exists t0, a0, x; repeat split; auto; apply Ho. }
    destruct Hcase as (t0 & a0 & v0 & Hc & Hwf & Ho & Hsv).
    destruct (sub_ok t0 w a0 v0 p t v Hwf Ho Hsv) as (o & E & Hwt & Hot & Hle & Hput).
    exists (a0 + o), s, u. split; [|split; [exact Hwt|split; [exact Hot|split; [exact Hah|split]]]].
    + rewrite Es. pose proof (place_deref t0 w a0 _ Hwf (proj1 (proj2 Ho)) (head_size_le t0 v0 Hwf (proj1 Ho))) as Ed.
      destruct Hc as [[-> ->]|[-> ->]]; step Ed; exact E.
    + unfold in_storage. destruct (N.eq_dec (vsize t v) 0) as [E0|E0]; [left; exact E0|right].
      destruct Hc as [[-> ->]|[-> ->]]; cbn [hblocks].
      * eexists. split; [left; reflexivity|]. cbn. lia.
      * destruct (N.eqb_spec (vsize t0 v0) 0); [lia|]. eexists. split; [left; reflexivity|]. cbn. lia.
    + intros w' v'' Hb Hm Ho'' Hsh. destruct (Hput w' v'' Hb Hm Ho'' Hsh) as [P1 P2].
      assert (Esz : vsize t0 (putsub v0 p v'') = vsize t0 v0) by (unfold vsize; now rewrite P2).
      destruct Hc as [[-> ->]|[-> ->]].
      * exists (ABox t0 (putsub v0 p v'')). split; [reflexivity|]. cbn [rep hblocks] in *. unfold box_block. rewrite Esz.
        split; [|reflexivity]. split; [reflexivity|]. split; [exact Hwf|]. split; [exact P1|]. unfold box_block. rewrite Esz, Hb. apply Hrep.
      * exists (AOwn t0 (putsub v0 p v'')). split; [reflexivity|]. cbn [rep hblocks] in *. unfold own_block. rewrite Esz.
        split; [|reflexivity]. split; [reflexivity|]. split; [exact Hwf|]. split; [exact P1|]. rewrite Hb. apply Hrep.
  - destruct (nth_error σ h) as [u|] eqn:Eu; [|discriminate].
    destruct (at_h_vals w sl σ n h u HI Eu) as (s & Hah & Hrep). pose proof Hah as [Es _].
    destruct u as [t' x|t' x|t0 c vs old|]; try discriminate. destruct s as [t1 a0|t1 a0|t1 c1 s|]; cbn [rep] in Hrep; try contradiction.
    destruct Hrep as ((-> & -> & Hwf & Hz) & Hat & Hbits).
    destruct (nth_error vs k) as [v0|] eqn:Ek; [|discriminate].
    destruct (seq_iter_at _ _ _ _ _ Hwf Hbl Hat) as (_ & _ & Hobjs). cbn [seq_iter it_ptr] in Hobjs.
    pose proof (objs_nth w t0 (s_ptr s) vs k v0 Hobjs Ek) as Ho. set (a0 := s_ptr s + total t0 (firstn k vs) * sp_align t0) in *.
    destruct (sub_ok t0 w a0 v0 p t v Hwf Ho Hp) as (o & E & Hwt & Hot & Hle & Hput).
    exists (a0 + o), (SSeq t0 c s), (ASeq t0 c vs old). split; [|split; [exact Hwt|split; [exact Hot|split; [exact Hah|split]]]].
    + rewrite Es. step (collect_addrs t0 c w s vs Hwf Hbl Hat). rewrite (nth_addrs t0 (s_ptr s) vs k v0 Ek). exact E.
    + unfold in_storage. right. cbn [hblocks].
      pose proof (total_nth t0 vs k v0 Ek) as Htn. pose proof (cells_ge t0 v0 Hwf) as Hcg. pose proof (sp_align_pos t0 Hwf) as Hpos.
      destruct Hat as (A1 & A2 & A3 & [[_ ->]|(B1 & _)]); [destruct k; discriminate|].
      destruct (N.eqb_spec (s_cap s) 0); [lia|]. eexists. split; [left; reflexivity|]. cbn [seq_block b_base b_size]. unfold storage_bytes, a0. nia.
    + intros w' v'' Hb Hm Ho'' Hsh. destruct (Hput w' v'' Hb Hm Ho'' Hsh) as [P1 P2].
      assert (Hm0 : same_outside (w_mem w) (w_mem w') a0 (vsize t0 v0)) by (intros x Hx; apply Hm; lia).
      destruct (seq_elem_ok w w' t0 c s vs k v0 (putsub v0 p v'') Hwf Hbl Hat Ek Hb Hm0 P1 P2) as [S1 S2].
      exists (ASeq t0 c (replace_nth vs k (putsub v0 p v'')) old). split; [reflexivity|]. split; [|reflexivity].
      cbn [rep]. split; [auto|]. split; [exact S1|]. intros Hc. apply S2; auto.
  - destruct (nth_error σ h) as [u0|] eqn:Eu; [|discriminate].
    destruct (at_h_vals w sl σ n h u0 HI Eu) as (s & Hah & Hrep). pose proof Hah as [Es _].
    destruct u0 as [t' x|t' x|t0 c vs old|]; try discriminate. destruct s as [t1 a0|t1 a0|t1 c1 s|]; cbn [rep] in Hrep; try contradiction.
    destruct Hrep as ((-> & -> & Hwf & Hz) & Hat & Hbits).
    destruct (u || c)%bool eqn:Euc; [|discriminate]. destruct (index_of o (starts t0 vs 0)) as [k|] eqn:Eo; [|discriminate]. apply index_of_nth in Eo.
    destruct (nth_error vs k) as [v0|] eqn:Ek; [|discriminate].
    assert (Eot : o = total t0 (firstn k vs)) by (destruct (starts_at _ _ _ _ Eo) as (v1 & _ & X); exact X).
    destruct (seq_iter_at _ _ _ _ _ Hwf Hbl Hat) as (_ & _ & Hobjs). cbn [seq_iter it_ptr] in Hobjs.
    pose proof (objs_nth w t0 (s_ptr s) vs k v0 Hobjs Ek) as Ho. set (a0 := s_ptr s + total t0 (firstn k vs) * sp_align t0) in *.
    destruct (sub_ok t0 w a0 v0 p t v Hwf Ho Hp) as (d & E & Hwt & Hot & Hle & Hput).
    exists (a0 + d), (SSeq t0 c s), (ASeq t0 c vs old). split; [|split; [exact Hwt|split; [exact Hot|split; [exact Hah|split]]]].
    + rewrite Es. step (lookup_ok w t0 c s vs old u o k Hwf Hz Hbl Hat Hbits Euc Eo). rewrite Eot. exact E.
    + unfold in_storage. right. cbn [hblocks].
      pose proof (total_nth t0 vs k v0 Ek) as Htn. pose proof (cells_ge t0 v0 Hwf) as Hcg. pose proof (sp_align_pos t0 Hwf) as Hpos.
      destruct Hat as (A1 & A2 & A3 & [[_ ->]|(B1 & _)]); [destruct k; discriminate|].
      destruct (N.eqb_spec (s_cap s) 0); [lia|]. eexists. split; [left; reflexivity|]. cbn [seq_block b_base b_size]. unfold storage_bytes, a0. nia.
    + intros w' v'' Hb Hm Ho'' Hsh. destruct (Hput w' v'' Hb Hm Ho'' Hsh) as [P1 P2].
      assert (Hm0 : same_outside (w_mem w) (w_mem w') a0 (vsize t0 v0)) by (intros x Hx; apply Hm; lia).
      destruct (seq_elem_ok w w' t0 c s vs k v0 (putsub v0 p v'') Hwf Hbl Hat Ek Hb Hm0 P1 P2) as [S1 S2].
      exists (ASeq t0 c (replace_nth vs k (putsub v0 p v'')) old). split; [reflexivity|]. split; [|reflexivity].
      cbn [rep]. split; [auto|]. split; [exact S1|]. intros Hc. apply S2; auto.
Qed.

(** ** initializer expressions *)
Definition moved_at (sl : list slot) (σ : list aval) (h : nat) (a : N) : Prop :=
  exists t v, at_h sl σ h (SBox t a) (ABox t v).
Definition src_from (w : world) (sl : list slot) (σ : list aval) (ms bs : list nat) (s : vty * N * vval * bool) : Prop :=
  let '(t, a, v, b) := s in
  if b then exists h, In h ms /\ at_h sl σ h (SBox t a) (ABox t v)
  else exists h s0 v0, In h bs /\ at_h sl σ h s0 v0 /\ obj_at w t a v /\ in_storage s0 v0 a (vsize t v).
Lemma src_from_mono w sl σ ms bs ms' bs' l : incl ms ms' -> incl bs bs' ->
  Forall (src_from w sl σ ms bs) l -> Forall (src_from w sl σ ms' bs') l.
Proof.
  intros H1 H2 H. rewrite Forall_forall in *. intros (((t & a) & v) & b) Hin. specialize (H _ Hin). cbn [src_from] in *.
  destruct b.
  - destruct H as (h & Hh & H). exists h. auto.
  - destruct H as (h & s0 & v0 & Hh & H). exists h, s0, v0. auto.
Qed.
Scheme den_mind := Minimality for den Sort Prop
with dens_mind := Minimality for dens Sort Prop.
Combined Scheme den_mut from den_mind, dens_mind.

Fixpoint evals (sl : list slot) (ps : list pinit) : M world (list init) :=
  match ps with
  | [] => ret []
  | p :: r => i <- eval sl p ;; is_ <- evals sl r ;; ret (i :: is_)
  end.
Lemma eval_fields sl ps w : eval sl (PFields ps) w = (is_ <- evals sl ps ;; ret (IRec is_)) w.
Proof.
  cbn [eval]. apply bind_ext; [|reflexivity]. induction ps as [|p ps IH]; intros s; cbn [evals]; [reflexivity|].
  apply bind_ext; [reflexivity|]. intros i s'. apply bind_ext; [apply IH|reflexivity].
Qed.

Definition eval_res (w : world) (sl : list slot) (σ : list aval) (t : vty) (p : pinit) (i0 : init) : Prop :=
  wf_ty t -> exists i, eval sl p w = Ok (strip i) w /\ noaddr i = i0 /\ iwt t i /\
    Forall2 (moved_at sl σ) (moves p) (ibases t i) /\ Forall (src_from w sl σ (moves p) (borrows p)) (srcs t i).
Definition evals_res (w : world) (sl : list slot) (σ : list aval) (fs : flds) (ps : list pinit) (is0 : list init) : Prop :=
  wf_flds fs -> exists is_, evals sl ps w = Ok (map strip is_) w /\ map noaddr is_ = is0 /\ iwt_flds fs is_ /\
    Forall2 (moved_at sl σ) (concat (map moves ps)) (ibases_flds fs is_) /\
    Forall (src_from w sl σ (concat (map moves ps)) (concat (map borrows ps))) (srcs_flds fs is_).

(** ** slices *)
Lemma app_split {A} (a b c d : list A) : length a = length c -> a ++ b = c ++ d -> a = c /\ b = d.
Proof.
  revert c. induction a as [|x a IH]; intros [|y c] Hl E; try discriminate; [auto|]. cbn in *. injection E as -> E.
  destruct (IH c ltac:(lia) E) as [-> ->]. auto.
Qed.
Lemma elems_firstn f xs n : elems_ok f xs -> elems_ok f (firstn n xs).
Proof. unfold elems_ok. rewrite !Forall_forall. intros H x Hx. apply H. rewrite <- (firstn_skipn n xs). apply in_or_app. auto. Qed.
Lemma elems_skipn f xs n : elems_ok f xs -> elems_ok f (skipn n xs).
Proof. unfold elems_ok. rewrite !Forall_forall. intros H x Hx. apply H. rewrite <- (firstn_skipn n xs). apply in_or_app. auto. Qed.
Lemma sub_array m p f xs lo k : elems_ok f xs -> lo + k <= len xs -> rd m p (len xs * f_size f) = concat xs ->
  let ys := firstn (N.to_nat k) (skipn (N.to_nat lo) xs) in
  elems_ok f ys /\ len ys = k /\ rd m (p + lo * f_size f) (k * f_size f) = concat ys.
Proof.
  intros He Hle Hr ys. assert (Hy : elems_ok f ys) by now apply elems_firstn, elems_skipn.
  assert (Hx : elems_ok f (firstn (N.to_nat lo) xs)) by now apply elems_firstn.
  assert (Hk : len ys = k) by (unfold ys, len in *; rewrite firstn_length, skipn_length; lia).
  assert (Hlo : len (firstn (N.to_nat lo) xs) = lo) by (unfold len in *; rewrite firstn_length; lia).
  split; [exact Hy|]. split; [exact Hk|].
  assert (Ec : concat xs = concat (firstn (N.to_nat lo) xs) ++ concat ys ++ concat (skipn (N.to_nat k) (skipn (N.to_nat lo) xs))).
  { unfold ys. now rewrite <- !concat_app, !firstn_skipn. }
  assert (Es : len xs * f_size f = lo * f_size f + (k * f_size f + (len xs - lo - k) * f_size f)) by nia.
  rewrite Es, Ec, !rd_app in Hr.
  apply app_split in Hr.
  - destruct Hr as [_ Hr]. apply app_split in Hr; [apply Hr|].
    pose proof (len_concat f ys Hy) as E1. rewrite Hk in E1. pose proof (len_rd m (p + lo * f_size f) (k * f_size f)) as E2. unfold len in *. lia.
  - pose proof (len_concat f _ Hx) as E1. rewrite Hlo in E1. pose proof (len_rd m p (lo * f_size f)) as E2. unfold len in *. lia.
Qed.
Lemma slice_init_ok w sl σ n f pl j lo k cl ai0 : Inv w sl σ n -> slice_den σ f pl j lo k cl ai0 ->
  exists ai, slice_init sl cl pl j lo k w = Ok (astrip ai) w /\ anoaddr ai = ai0 /\ aok f ai /\
    Forall (src_from w sl σ [] [place_handle pl]) (asrcs f ai).
Proof.
  intros HI Hd.
  assert (G : forall xs, elements_at σ pl j = Some (f, xs) -> lo + k <= len xs ->
    let ys := firstn (N.to_nat k) (skipn (N.to_nat lo) xs) in
    exists p, slice_init sl cl pl j lo k w = Ok (if cl then ACloneAt p k [] else ACopyAt p k []) w /\
      elems_ok f ys /\ len ys = k /\ k < W /\
      Forall (src_from w sl σ [] [place_handle pl]) [(tslice f k, p, VRec [VArr ys], false)]).
  { intros xs He Hle ys. unfold elements_at in He. destruct (at_place σ pl) as [[t v]|] eqn:Hp; [|discriminate].
    destruct (resolve_ok w sl σ n pl t v HI Hp) as (a & s0 & v0 & E & Hwf & Ho & Hah & Hst & _).
    destruct (array_slice_ok t w a v j f xs Hwf Ho He) as (o & Es & Hf & Hx & HW & Hin & HaW & H0 & Hm & Hl & Hr).
    destruct (sub_array (w_mem w) (a + o) f xs lo k Hx Hle Hr) as (Hy & Hk & Hry). fold ys in Hy, Hk, Hry.
    exists (a + o + lo * f_size f). split.
    - unfold slice_init. step E. cbn [fst snd]. step Es. unfold sub_slice. apply N.leb_le in Hle. rewrite Hle. reflexivity.
    - split; [exact Hy|]. split; [exact Hk|]. split; [lia|]. constructor; [|constructor]. cbn [src_from].
      destruct (slice_src_ok f k (a + o + lo * f_size f) (w_blocks w) (w_mem w) ys) as [S1 S2]; auto.
      + lia.
      + lia.
      + destruct Hf as (F1 & F2 & _). pose proof (pow2_pos _ F1). apply add_mod_0; [lia|exact Hm|]. rewrite N.mul_mod, F2, N.mul_0_r, N.mod_0_l by lia. reflexivity.
      + nia.
      + eapply live_sub; [exact Hl|nia].
      + exists (place_handle pl), s0, v0. split; [left; reflexivity|]. split; [exact Hah|].
        split; [split; [apply tslice_vok; auto; lia|split; apply S1]|]. rewrite S2.
        destruct Hst as [E0|(c & Hc & L1 & L2)]; [left; nia|right]. exists c. split; [exact Hc|nia]. }
  destruct Hd as [xs He Hle Hdr|xs He Hle]; destruct (G xs He Hle) as (p & E & Hy & Hk & HW & Hs).
  - eexists (ACopyAt p k _). split; [exact E|]. split; [reflexivity|]. split; [cbn [aok]; auto|exact Hs].
  - eexists (ACloneAt p k _). split; [exact E|]. split; [reflexivity|]. split; [cbn [aok]; auto|exact Hs].
Qed.
Lemma supplied_facts f ai : supplied ai -> astrip ai = ai /\ anoaddr ai = ai /\ asrcs f ai = [].
Proof. destruct ai; intros H; try contradiction; repeat split. Qed.
Lemma eval_all w sl σ n : Inv w sl σ n ->
  (forall t p i0, den σ t p i0 -> eval_res w sl σ t p i0) /\
  (forall fs ps is0, dens σ fs ps is0 -> evals_res w sl σ fs ps is0).
Proof.
  intros HI. apply den_mut; unfold eval_res, evals_res.
  - intros f v Hl Hwf. exists (IFixed v). repeat split; auto; constructor.
  - intros f v Hl Hwf. exists (IFixedClone v). repeat split; auto; constructor.
  - intros f k m ai Ha Hs Hn Hwf. exists (ISized m ai).
    destruct (supplied_facts f ai Hs) as (S1 & S2 & S3). split; [cbn [eval strip]; now rewrite S1|]. split; [cbn [noaddr]; now rewrite S2|].
    split; [split; auto|]. cbn [srcs]. rewrite S3. split; constructor.
  - intros f k m cl pl j lo l ai Hs Hn Hwf. destruct (slice_init_ok w sl σ n f pl j lo l cl ai HI Hs) as (aj & E & A1 & A2 & A3).
    exists (ISized m aj). split; [cbn [eval]; now step E|]. split; [cbn [noaddr]; now rewrite A1|]. split; [split; auto|].
    split; [constructor|]. exact A3.
  - intros t p i _ IH Hwf. destruct (IH Hwf) as (j & E & A1 & A2 & A3 & A4). exists (INew j).
    split; [cbn [eval]; now step E|]. split; [cbn [noaddr]; now rewrite A1|]. auto.
  - intros kd hs ha fs ps is_ _ IH Hwf. destruct (IH (proj1 (proj2 Hwf))) as (js & E & A1 & A2 & A3 & A4). exists (IRec js).
    split; [rewrite eval_fields; now step E|]. split; [cbn [noaddr]; now rewrite A1|]. auto.
  - intros t h v Hv Hwf. destruct (at_h_vals w sl σ n h _ HI Hv) as (s & Hah & Hrep).
    destruct s as [t0 a|t0 a|t0 c s|]; cbn [rep] in Hrep; try contradiction. destruct Hrep as (-> & _ & Hb).
    exists (IBox a v). split; [cbn [eval]; rewrite (proj1 Hah); reflexivity|]. split; [reflexivity|].
    assert (Ei : iwt t (IBox a v)) by (destruct t; apply Hb). split; [exact Ei|]. split.
    + replace (ibases t (IBox a v)) with [a] by (destruct t; reflexivity). constructor; [|constructor]. exists t, v. exact Hah.
    + replace (srcs t (IBox a v)) with [(t, a, v, true)] by (destruct t; reflexivity). constructor; [|constructor].
      exists h. split; [left; reflexivity|exact Hah].
  - intros t pl v Hp Hpl Hwf. destruct (resolve_ok w sl σ n pl t v HI Hp) as (a & s0 & v0 & E & _ & Ho & Hah & Hst & _).
    exists (ICopy a v). split; [cbn [eval]; now step E|]. split; [reflexivity|]. split; [destruct t; split; auto; apply Ho|]. split.
    + replace (ibases t (ICopy a v)) with (@nil N) by (destruct t; reflexivity). constructor.
    + replace (srcs t (ICopy a v)) with [(t, a, v, false)] by (destruct t; reflexivity). constructor; [|constructor].
      exists (place_handle pl), s0, v0. split; [left; reflexivity|auto].
  - intros t pl v Hp Hc Hwf. destruct (resolve_ok w sl σ n pl t v HI Hp) as (a & s0 & v0 & E & _ & Ho & Hah & Hst & _).
    destruct (vclone_ok3 t w a v Hwf Hc Ho) as (i & Ec & Hn & Hi & Hcs). exists i.
    split; [cbn [eval]; step E; exact Ec|]. split; [exact Hn|]. split; [exact Hi|]. split.
    + unfold ibases. rewrite (proj1 Hcs). constructor.
    + pose proof (csrc_srcs w a _ t i Hwf Hi Hcs (proj2 (proj2 (proj2 (proj1 (proj2 Ho)))))) as G. rewrite Forall_forall in *.
      intros (((t' & a') & v') & b) Hin. destruct (G _ Hin) as (-> & Ho' & Hr'). cbn [src_from].
      exists (place_handle pl), s0, v0. split; [left; reflexivity|]. split; [exact Hah|]. split; [exact Ho'|].
      destruct Hr' as [E0|[L1 L2]]; [left; exact E0|]. destruct Hst as [E0|(c & Hc' & M1 & M2)]; [left; lia|right]. exists c. split; [exact Hc'|lia].
  - intros _. exists []. repeat split; constructor.
  - intros off f r v ps is_ Hl _ IH [_ Hwf]. destruct (IH Hwf) as (js & E & A1 & A2 & A3 & A4). exists (IFixed v :: js).
    split; [cbn [evals]; step (eq_refl : eval sl (PFixed v) w = Ok (IFixed v) w); now step E|]. split; [cbn [map noaddr]; now rewrite A1|]. split; [split; auto|]. split; [exact A3|exact A4].
  - intros off f r v ps is_ Hl _ IH [_ Hwf]. destruct (IH Hwf) as (js & E & A1 & A2 & A3 & A4). exists (IFixed v :: js).
    split; [cbn [evals]; step (eq_refl : eval sl (PFixed v) w = Ok (IFixed v) w); now step E|]. split; [cbn [map noaddr]; now rewrite A1|]. split; [split; auto|]. split; [exact A3|exact A4].
  - intros t r p i ps is_ _ IHt _ IH [Hwt Hwf]. destruct (IHt Hwt) as (j & E & A1 & A2 & A3 & A4).
    destruct (IH Hwf) as (js & E' & B1 & B2 & B3 & B4). exists (j :: js).
    split; [cbn [evals]; step E; now step E'|]. split; [cbn [map noaddr]; now rewrite A1, B1|]. split; [split; auto|].
    unfold ibases_flds. cbn [map concat iboxes_flds srcs_flds]. rewrite map_app. split; [now apply Forall2_app|].
    apply Forall_app. split; [eapply src_from_mono; [| |exact A4]|eapply src_from_mono; [| |exact B4]]; intros x Hx; apply in_or_app; auto.
  - intros f lf r ai ps is_ Ha Hs _ IH (_ & Hwf). destruct (IH Hwf) as (js & E & A1 & A2 & A3 & A4). exists (IArrF ai :: js).
    destruct (supplied_facts f ai Hs) as (S1 & S2 & S3).
    split; [cbn [evals]; step (eq_refl : eval sl (PArrF ai) w = Ok (IArrF ai) w); step E; cbn [map strip]; now rewrite S1|].
    split; [cbn [map noaddr]; now rewrite A1, S2|]. split; [split; auto|]. split; [exact A3|]. cbn [srcs_flds]. rewrite S3. exact A4.
  - intros f lf r cl pl j lo l ai ps is_ Hs _ IH (_ & Hwf). destruct (IH Hwf) as (js & E & A1 & A2 & A3 & A4).
    destruct (slice_init_ok w sl σ n f pl j lo l cl ai HI Hs) as (aj & E' & B1 & B2 & B3). exists (IArrF aj :: js).
    assert (E2 : eval sl (PArrAt cl pl j lo l) w = Ok (IArrF (astrip aj)) w) by (cbn [eval]; now step E').
    split; [cbn [evals]; step E2; now step E|].
    split; [cbn [map noaddr]; now rewrite A1, B1|]. split; [split; auto|]. split; [exact A3|].
    cbn [srcs_flds map concat borrows moves]. apply Forall_app. split.
    + eapply src_from_mono; [| |exact B3]; [intros x []|]. intros x [<-|[]]. left. reflexivity.
    + eapply src_from_mono; [| |exact A4]; intros x Hx; [exact Hx|]. right. exact Hx.
Qed.

(** An evaluated initializer is ready for any destination that lies in the storage of a value that
    is neither moved nor borrowed. *)
Lemma moved_nodup w sl σ n : Inv w sl σ n -> forall hs l, NoDup hs -> Forall2 (moved_at sl σ) hs l -> NoDup l.
Proof.
  intros (_ & _ & _ & Hdis & _) hs l Hnd H. induction H as [|h a hs l Hm H IH]; [constructor|].
  inversion Hnd as [|? ? Hni Hnd']; subst. constructor; [|auto]. intros Hin. apply Hni.
  assert (Hex : exists h', In h' hs /\ moved_at sl σ h' a).
  { clear -H Hin. induction H as [|x y l l' Hxy H IH]; [contradiction|]. destruct Hin as [->|Hin]; [exists x; split; [left; reflexivity|exact Hxy]|].
    destruct (IH Hin) as (h' & H1 & H2). exists h'. split; [right; exact H1|exact H2]. }
  destruct Hex as (h' & Hh' & (t' & v' & Ha')), Hm as (t & v & Ha).
  replace h with h'; [exact Hh'|]. symmetry. eapply (Hdis h h'); [exact Ha|exact Ha'|left; reflexivity|left; reflexivity].
Qed.
Lemma moved_in sl σ hs l : Forall2 (moved_at sl σ) hs l ->
  (forall a, In a l -> exists h, In h hs /\ moved_at sl σ h a) /\ (forall h, In h hs -> exists a, In a l /\ moved_at sl σ h a).
Proof.
  induction 1 as [|x y l l' Hxy H [IH1 IH2]]; [split; intros ? []|]. split.
  - intros a [<-|Hin]; [exists x; split; [left; reflexivity|exact Hxy]|]. destruct (IH1 a Hin) as (h & A & B). exists h. split; [right; exact A|exact B].
  - intros h [<-|Hin]; [exists y; split; [left; reflexivity|exact Hxy]|]. destruct (IH2 h Hin) as (a & A & B). exists a. split; [right; exact A|exact B].
Qed.
Lemma apart_bases w sl σ n h h' s v s' v' a k b m :
  Inv w sl σ n -> h <> h' -> at_h sl σ h s v -> at_h sl σ h' s' v' -> in_storage s v a k -> in_storage s' v' b m -> apart a k b m.
Proof.
  intros (Hbl & _ & Hrep & Hdis & _) Hne Ha Ha' [->|(c & Hc & L1 & L2)] [->|(c' & Hc' & L1' & L2')]; unfold apart; auto.
  destruct (N.eq_dec (b_base c) (b_base c')) as [E|E].
  - exfalso. apply Hne. eapply (Hdis h h' s v s' v' (b_base c)); auto; unfold hbases; apply in_map_iff; [eauto|]. exists c'. auto.
  - pose proof (wf_blocks_disj _ _ _ Hbl (rep_blocks _ _ _ (Hrep _ _ _ Ha) _ Hc) (rep_blocks _ _ _ (Hrep _ _ _ Ha') _ Hc') E) as Hd.
    unfold blocks_apart in Hd. lia.
Qed.
Lemma eval_ready w sl σ n t p i tgt D m :
  Inv w sl σ n -> iwt t i -> borrow_ok p tgt ->
  Forall2 (moved_at sl σ) (moves p) (ibases t i) -> Forall (src_from w sl σ (moves p) (borrows p)) (srcs t i) ->
  (m = 0 \/ exists h s v, In h tgt /\ at_h sl σ h s v /\ in_storage s v D m) ->
  init_ready w t i D m.
Proof.
  intros HI Hi (B1 & B2 & B3) Hm Hs Ht. pose proof HI as (Hbl & _ & Hrep & Hdis & _).
  split; [exact Hi|]. split; [eapply moved_nodup; eauto|]. apply isrc_srcs. rewrite Forall_forall in *.
  intros (((t' & a) & v) & b) Hin. specialize (Hs _ Hin). cbn [src_from src_cond] in *.
  assert (Hap : forall h s0 v0 a0 k, at_h sl σ h s0 v0 -> in_storage s0 v0 a0 k -> ~ In h tgt -> apart a0 k D m).
  { intros h s0 v0 a0 k Ha0 Hst Hn. destruct Ht as [->|(h' & s' & v' & Hh' & Ha' & Hst')]; [unfold apart; auto|].
    apply (apart_bases w sl σ n h h' s0 v0 s' v'); auto. intros ->. contradiction. }
  destruct b.
  - destruct Hs as (h & Hh & Ha). destruct (Hrep _ _ _ Ha) as (_ & Hwf & Ho & Hb).
    split; [exact Hb|]. split; [split; apply Ho|]. apply (Hap h _ _ a (vsize t' v) Ha); [|now apply B2].
    right. eexists. split; [left; reflexivity|]. cbn. lia.
  - destruct Hs as (h & s0 & v0 & Hh & Ha & (Hv & (P0 & Pm & PW & Pl) & Hr) & Hst). split; [split; [|exact Hr]|eapply Hap; eauto].
    repeat split; auto. destruct Hst as [E|(c & Hc & L1 & L2)]; [left; exact E|right]. exists c. split; [|auto].
    apply in_without. split; [eapply rep_blocks; eauto|]. intros Hin'. destruct (proj1 (moved_in _ _ _ _ Hm) _ Hin') as (h' & Hh' & (t1 & v1 & Ha')).
    assert (Eh : h' = h).
    { eapply (Hdis h' h _ _ _ _ (b_base c)); [exact Ha'|exact Ha|left; reflexivity|]. unfold hbases. apply in_map_iff. eauto. }
    rewrite Eh in Hh'. destruct (B2 h Hh') as [X _]. apply X. exact Hh.
Qed.

(** ** determinism *)
Lemma slice_den_fun σ f pl j lo k cl ai aj : slice_den σ f pl j lo k cl ai -> slice_den σ f pl j lo k cl aj -> ai = aj.
Proof. intros H H'. inversion H; inversion H'; subst; congruence. Qed.
Lemma den_fun σ :
  (forall t p i, den σ t p i -> forall i', den σ t p i' -> i = i') /\
  (forall fs ps is_, dens σ fs ps is_ -> forall is', dens σ fs ps is' -> is_ = is').
Proof.
  apply den_mut.
  - intros f v Hl i' H. inversion H; subst. reflexivity.
  - intros f v Hl i' H. inversion H; subst. reflexivity.
  - intros f k m ai Ha Hs Hn i' H. inversion H; subst. reflexivity.
  - intros f k m cl pl j lo l ai Hs Hn i' H. inversion H; subst. f_equal. eapply slice_den_fun; eauto.
  - intros t p i _ IH i' H. inversion H; subst. f_equal. auto.
  - intros kd hs ha fs ps is_ _ IH i' H. inversion H; subst. f_equal. auto.
  - intros t h v Hv i' H. inversion H; subst. congruence.
  - intros t pl v Hp Hpl i' H. inversion H; subst. congruence.
  - intros t pl v Hp Hpl i' H. inversion H; subst. congruence.
  - intros is' H. inversion H; subst. reflexivity.
  - intros off f r v ps is_ Hl _ IH is' H. inversion H; subst. f_equal. auto.
  - intros off f r v ps is_ Hl _ IH is' H. inversion H; subst. f_equal. auto.
  - intros t r p i ps is_ _ IHt _ IH is' H. inversion H; subst. f_equal; auto.
  - intros f lf r ai ps is_ Ha Hs _ IH is' H. inversion H; subst. f_equal. auto.
  - intros f lf r cl pl j lo l ai ps is_ Hs _ IH is' H. inversion H; subst. f_equal; [f_equal; eapply slice_den_fun; eauto|auto].
Qed.
