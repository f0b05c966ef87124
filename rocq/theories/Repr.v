(** Repr.v - moving and framing object representations; reading whole objects; destructors. *)
From Verif Require Export Read.

Lemma rd_shift m m' a a' n : (forall i, i < n -> m' (a' + i) = m (a + i)) -> rd m' a' n = rd m a n.
Proof.
  intros H. apply rd_eq; [apply len_rd|]. intros i Hi. rewrite nth_rd by auto. now apply H.
Qed.

Lemma hdr_in_cons off f r A n fs :
  head_fields fs = (off, f) :: head_fields r -> hdr_in fs A n -> hdr_in r A n.
Proof. intros E H o g Hin. apply H. rewrite E. right. exact Hin. Qed.
Lemma hdr_in_le fs A n k : hdr_in fs A n -> n <= k -> hdr_in fs A k.
Proof. intros H Hk o g Hin. destruct (H o g Hin) as (A1 & A2 & A3). repeat split; auto; lia. Qed.

Lemma repr_shift_all :
  (forall t, wf_ty t -> forall m m' a a' v, vok t v ->
     (forall i, i < vsize t v -> m' (a' + i) = m (a + i)) -> repr m t a v -> repr m' t a' v) /\
  (forall fs, wf_flds fs -> forall m m' a a' vs cs pos A, hdr_in fs A pos -> vok_flds fs vs cs ->
     (forall i, i < sp_end fs (map vshape vs) pos -> m' (a' + i) = m (a + i)) ->
     repr_flds m fs a vs pos -> repr_flds m' fs a' vs pos).
Proof.
  unfold vsize. apply vty_flds_ind.
  - intros f Hwf m m' a a' v Hv Hs Hr. destruct v; try contradiction. cbn [repr vshape sp_size] in *.
    rewrite <- Hr. now apply rd_shift.
  - intros f k Hwf m m' a a' v Hv Hs Hr. destruct v as [|xs| |]; try contradiction.
    cbn [repr vshape sp_size] in *. destruct Hr as [H1 H2].
    pose proof (up_ge (len_size k) (f_align f) (pow2_pos _ (proj1 Hwf))). split.
    + rewrite <- H1. apply rd_shift. intros; apply Hs. lia.
    + rewrite <- H2. apply rd_shift. intros. rewrite <- !N.add_assoc. apply Hs. lia.
  - intros t IH Hwf m m' a a' v Hv Hs Hr. destruct v; try contradiction. cbn [repr vshape] in *.
    apply (IH Hwf m m' a a' v Hv Hs Hr).
  - intros kd hs ha fs IH Hwf m m' a a' v Hv Hs Hr. destruct v as [| | |vs]; try contradiction.
    cbn [repr vshape vok sp_size] in *. destruct Hwf as ((_ & _ & _ & Hh & _) & Hwfs & _).
    eapply (IH Hwfs m m' a a' vs _ hs ha); eauto.
  - intros _ m m' a a' vs cs pos A Hh Hv Hs Hr. destruct vs; try contradiction. exact I.
  - intros off f r IH Hwf m m' a a' vs cs pos A Hh Hv Hs Hr.
    destruct vs as [|[bs| | |] vs]; try contradiction. cbn [vok_flds repr_flds map vshape sp_end wf_flds] in *.
    destruct Hr as [H1 H2]. split.
    + rewrite <- H1. apply rd_shift. intros. rewrite <- !N.add_assoc. apply Hs.
      destruct (Hh off f (or_introl eq_refl)) as (_ & B & _).
      pose proof (sp_end_ge r (proj2 Hwf) (map vshape vs) pos). lia.
    + eapply (IH (proj2 Hwf)); eauto; [|apply Hv]. eapply hdr_in_cons; eauto. reflexivity.
  - intros off f r IH Hwf m m' a a' vs cs pos A Hh Hv Hs Hr.
    destruct vs as [|[bs| | |] vs]; try contradiction. cbn [vok_flds repr_flds map vshape sp_end wf_flds] in *.
    destruct Hr as [H1 H2]. split.
    + rewrite <- H1. apply rd_shift. intros. rewrite <- !N.add_assoc. apply Hs.
      destruct (Hh off f (or_introl eq_refl)) as (_ & B & _).
      pose proof (sp_end_ge r (proj2 Hwf) (map vshape vs) pos). lia.
    + eapply (IH (proj2 Hwf)); eauto; [|apply Hv]. eapply hdr_in_cons; eauto. reflexivity.
  - intros t IHt r IH Hwf m m' a a' vs cs pos A Hh Hv Hs Hr.
    destruct vs as [|v vs]; try contradiction. cbn [vok_flds repr_flds map sp_end wf_flds] in *.
    destruct Hr as [H1 H2]. destruct Hwf as [Hwt Hwr].
    pose proof (sp_end_ge r Hwr (map vshape vs) (up pos (sp_align t) + sp_size t (vshape v))).
    pose proof (up_ge pos (sp_align t) (sp_align_pos _ Hwt)). split.
    + eapply (IHt Hwt m m'); [apply Hv| |exact H1]. intros. rewrite <- !N.add_assoc. apply Hs. lia.
    + eapply (IH Hwr); [|apply Hv|exact Hs|exact H2]. eapply hdr_in_le; [exact Hh|]. lia.
  - intros f lf r IH Hwf m m' a a' vs cs pos A Hh Hv Hs Hr.
    destruct vs as [|[|xs| |] vs]; try contradiction. cbn [vok_flds repr_flds map vshape sp_end wf_flds] in *.
    destruct Hr as [H1 H2]. destruct Hwf as (Hf & Hwr).
    pose proof (sp_end_ge r Hwr (map vshape vs) (up pos (f_align f) + len xs * f_size f)).
    pose proof (up_ge pos (f_align f) (pow2_pos _ (proj1 Hf))). split.
    + rewrite <- H1. apply rd_shift. intros. rewrite <- !N.add_assoc. apply Hs. lia.
    + eapply (IH Hwr); [|apply Hv|exact Hs|exact H2]. eapply hdr_in_le; [exact Hh|]. lia.
Qed.

Lemma repr_shift t m m' a a' v :
  wf_ty t -> vok t v -> (forall i, i < vsize t v -> m' (a' + i) = m (a + i)) ->
  repr m t a v -> repr m' t a' v.
Proof. intros; eapply (proj1 repr_shift_all); eauto. Qed.

(** An object outside the modified range keeps its value. *)
Lemma repr_frame t m m' a v b n :
  wf_ty t -> vok t v -> same_outside m m' b n -> apart a (vsize t v) b n ->
  repr m t a v -> repr m' t a v.
Proof.
  intros Hwf Hv Hs Ha Hr. apply (repr_shift t m m' a a v); auto. intros i Hi. apply Hs. unfold apart in Ha. lia.
Qed.

(** ** arrays *)
Lemma elem_place f p n bl i :
  fty_ok f -> p <> 0 -> p mod f_align f = 0 -> live bl p (n * f_size f) -> i < n ->
  p + i * f_size f <> 0 /\ (p + i * f_size f) mod f_align f = 0 /\ live bl (p + i * f_size f) (f_size f).
Proof.
  intros Hf H0 Hm Hl Hi. pose proof (pow2_pos _ (proj1 Hf)). split; [lia|]. split.
  - apply add_mod_0; [lia|exact Hm|]. apply mul_mod_0; [lia|apply Hf].
  - eapply live_sub; [exact Hl|]. nia.
Qed.

Lemma read_array_ok f a off xs w :
  fty_ok f -> elems_ok f xs -> a + off < W -> a + off <> 0 -> (a + off) mod f_align f = 0 ->
  live (w_blocks w) (a + off) (len xs * f_size f) ->
  rd (w_mem w) (a + off) (len xs * f_size f) = concat xs ->
  read_array f a off (len xs) w = Ok xs w.
Proof.
  intros Hf Hx HW H0 Hm Hl Hr. unfold read_array. rewrite wadd_small by auto.
  step (check_ref_ok w _ _ _ H0 Hm Hl).
  rewrite (mapM_read _ (fun i => rd (w_mem w) (a + off + i * f_size f) (f_size f))).
  - f_equal. now apply rd_chunks.
  - intros i Hi. apply in_upto in Hi.
    destruct (elem_place f (a + off) (len xs) (w_blocks w) i Hf H0 Hm Hl Hi) as (B1 & B2 & B3).
    now apply load_ok.
Qed.

(** where the parts of an object lie *)
Lemma arr_place bl f k a xs :
  fty_ok f -> place_ok bl (TArray f k) a (vsize (TArray f k) (VArr xs)) ->
  let off := up (len_size k) (f_align f) in
  a + off < W /\ a + off <> 0 /\ (a + off) mod f_align f = 0 /\ live bl (a + off) (len xs * f_size f).
Proof.
  intros Hf (H0 & Hm & HW & Hl). unfold vsize in *; cbn [vshape sp_size sp_align] in *. cbv zeta.
  pose proof (pow2_pos _ (proj1 Hf)). repeat split; try lia.
  - apply add_mod_0; [lia| |apply up_mod; auto].
    eapply pow2_mod; [apply Hf| |apply N.le_max_r|exact Hm]. apply pow2_max; [apply len_size_pow2|apply Hf].
  - eapply live_sub; [exact Hl|]. lia.
Qed.

Lemma fvar_place bl t r A a pos s ss :
  wf_ty t -> wf_flds r -> flds_place bl (FVar t r) A a (sp_end (FVar t r) (s :: ss) pos) ->
  a + up pos (sp_align t) < W /\
  place_ok bl t (a + up pos (sp_align t)) (sp_size t s) /\
  flds_place bl r A a (sp_end r ss (up pos (sp_align t) + sp_size t s)).
Proof.
  intros Hwt Hwr (H0 & HA & Hm & Hal & HW & Hl). cbn [sp_falign sp_end] in *.
  pose proof (sp_end_ge r Hwr ss (up pos (sp_align t) + sp_size t s)) as Hge.
  pose proof (sp_align_pow2 t Hwt) as Hpw. pose proof (pow2_pos _ Hpw) as Hpos.
  set (o := up pos (sp_align t)) in *.
  assert (Ho : o mod sp_align t = 0) by (apply up_mod; auto).
  split; [lia|]. split.
  - repeat split; [lia| |lia|].
    + apply add_mod_0; [lia| |exact Ho]. eapply pow2_mod; [exact Hpw|exact HA| |exact Hm]. lia.
    + eapply live_sub; [exact Hl|lia].
  - repeat split; auto; lia.
Qed.
Lemma farr_place bl f lf r A a pos n ss :
  fty_ok f -> wf_flds r -> flds_place bl (FArr f lf r) A a (sp_end (FArr f lf r) (ShArr n :: ss) pos) ->
  let off := up pos (f_align f) in
  (a + off < W /\ a + off <> 0 /\ (a + off) mod f_align f = 0 /\ live bl (a + off) (n * f_size f)) /\
  flds_place bl r A a (sp_end r ss (off + n * f_size f)).
Proof.
  intros Hf Hwr (H0 & HA & Hm & Hal & HW & Hl). cbn [sp_falign sp_end] in *. cbv zeta.
  pose proof (sp_end_ge r Hwr ss (up pos (f_align f) + n * f_size f)) as Hge.
  pose proof (pow2_pos _ (proj1 Hf)) as Hpos. split.
  - repeat split; try lia.
    + apply add_mod_0; [lia| |apply up_mod; auto]. eapply pow2_mod; [apply Hf|exact HA| |exact Hm]. lia.
    + eapply live_sub; [exact Hl|lia].
  - repeat split; auto; lia.
Qed.
Lemma fhdr_place bl fs off f r A a n :
  head_fields fs = (off, f) :: head_fields r -> fty_ok f -> sp_falign r <= sp_falign fs ->
  flds_place bl fs A a n -> hdr_in fs A n ->
  a + off < W /\ a + off <> 0 /\ (a + off) mod f_align f = 0 /\ live bl (a + off) (f_size f) /\
  flds_place bl r A a n /\ hdr_in r A n.
Proof.
  intros E Hf Hr (H0 & HA & Hm & Hal & HW & Hl) Hh.
  assert (Hin : In (off, f) (head_fields fs)) by (rewrite E; left; auto).
  destruct (Hh off f Hin) as (B1 & B2 & B3).
  destruct (leaf_place A n a off f bl Hf H0 HA Hm Hl B1 B2 B3) as (C1 & C2 & C3).
  repeat split; auto; try lia; eapply hdr_in_cons; eauto.
Qed.

Lemma place_deref t w a n :
  wf_ty t -> place_ok (w_blocks w) t a n -> head_size t <= n ->
  check_ref a (head_size t) (head_align t) w = Ok tt w.
Proof.
  intros Hwf (P0 & Pm & PW & Pl) Hn. apply check_ref_ok; auto.
  - eapply pow2_mod; [apply head_align_pow2; auto|exact (sp_align_pow2 t Hwf)|apply head_align_le; auto|exact Pm].
  - eapply live_pre; eauto.
Qed.
