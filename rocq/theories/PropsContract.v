(** PropsContract.v - C68: VBox, Owned and Seq over every type that keeps the contract of VarLen. *)
From Verif Require Export ContractExample.

(** ** C68: containers over any type that keeps the contract *)

(** The generic code at a type of the crate is the code modelled everywhere else. *)
Lemma udrop_loop_same t n : forall it w, udrop_elems_loop (crate_impl t) n it w = drop_elems_loop t n it w.
Proof.
  induction n as [|n IH]; intros it w; [reflexivity|]. cbn [udrop_elems_loop drop_elems_loop].
  change (uiter_next (crate_impl t) it) with (iter_next t it). unfold bind at 1 3.
  destruct (iter_next t it w) as [r w1|w1|e]; [|reflexivity|reflexivity]. destruct (fst r) as [a|]; [|reflexivity].
  change (uowned_drop (crate_impl t) a) with (owned_drop t a). unfold bind.
  destruct (owned_drop t a w1) as [[] w2|w2|e]; [apply IH|reflexivity|reflexivity].
Qed.
Lemma ucollect_same t n : forall it w, uiter_collect (crate_impl t) n it w = iter_collect t n it w.
Proof.
  induction n as [|n IH]; intros it w; [reflexivity|]. cbn [uiter_collect iter_collect].
  change (uiter_next (crate_impl t) it) with (iter_next t it). unfold bind at 1 3.
  destruct (iter_next t it w) as [r w1|w1|e]; [|reflexivity|reflexivity]. destruct (fst r) as [a|]; [|reflexivity].
  unfold bind. now rewrite IH.
Qed.
Lemma uelems_same t it w : uowned_elems_drop (crate_impl t) it w = owned_elems_drop t it w.
Proof.
  unfold uowned_elems_drop, owned_elems_drop. cbn [crate_impl u_ndrop u_nvdrop].
  destruct (core_needs_drop t || needs_vdrop t); [apply udrop_loop_same|reflexivity].
Qed.
Lemma useq_drop_same t chk x : useq_drop (crate_impl t) chk x = seq_drop t chk x.
Proof.
  destruct x as [w s]. unfold useq_drop, seq_drop. change (utake_elems (crate_impl t) chk) with (take_elems t chk).
  cbv [bind get_sq lft]. destruct (s_cap s =? 0); [reflexivity|].
  destruct (take_elems t chk (w, s)) as [it [w1 s1]|x1|e]; [|reflexivity|reflexivity].
  rewrite uelems_same. reflexivity.
Qed.
Theorem C68_same_code : forall t,
  uvbox_new (crate_impl t) = vbox_new t /\ uvbox_drop (crate_impl t) = vbox_drop t /\
  uowned_new_in (crate_impl t) = owned_new_in t /\ uowned_drop (crate_impl t) = owned_drop t /\
  useq_new (crate_impl t) = seq_new t /\ useq_push (crate_impl t) = seq_push t /\
  useq_extend (crate_impl t) = seq_extend t /\ uiter_next (crate_impl t) = iter_next t /\
  utake_elems (crate_impl t) = take_elems t /\
  ufrom_offset (crate_impl t) = from_offset t /\ uoffset_of (crate_impl t) = offset_of t /\
  (forall chk x, useq_drop (crate_impl t) chk x = seq_drop t chk x) /\
  (forall n it w, uiter_collect (crate_impl t) n it w = iter_collect t n it w) /\
  (forall it w, uowned_elems_drop (crate_impl t) it w = owned_elems_drop t it w) /\
  (forall i bs, uvbox_new (with_held (crate_impl t)) (i, bs) = vbox_new t i) /\
  (forall i bs chk, useq_push (with_held (crate_impl t)) chk (i, bs) = seq_push t chk i) /\
  (forall a v, u_cautious (with_boxes vval (crate_impl t)) (Moved a v) =
       (check_ref a (head_size t) (head_align t) ;;; init_layout t (IBox a v)) /\
     u_init (with_boxes vval (crate_impl t)) (Moved a v) = initialize t (IBox a v) /\
     u_idrop (with_boxes vval (crate_impl t)) (Moved a v) = drop_init t (IBox a v)).
Proof.
  intros t. repeat (split; [reflexivity|]). split; [apply useq_drop_same|]. split; [apply ucollect_same|]. split; [apply uelems_same|].
  repeat (split; [reflexivity|]). intros a v. repeat split; destruct t; reflexivity.
Qed.

(** The crate's types keep the contract, and so do, for any type that keeps it, its boxes. *)
Theorem C68_crate_types : forall t, wf_ty t -> contract (with_held (crate_impl t)) (crate_meaning t).
Proof. exact crate_contract. Qed.
Theorem C68_boxes : forall L I V (u : impl L I) (d : meaning L I V),
  contract u d -> contract (with_boxes V u) (boxed_meaning u d).
Proof. intros L I V u d. apply boxes_contract. Qed.
(** So do types the crate cannot define. *)
Theorem C68_user_type : contract cs_impl cs_meaning /\ no_zst cs_impl cs_meaning.
Proof. split; [exact cs_contract|exact cs_no_zst]. Qed.

(** VBox::new: a box with the value, in a block of its own; or a panic after which nothing is left of
    the attempt but what the initializer left (and, if the initializer panicked, the block); undefined
    behaviour only when the allocator fails (as refuted in C02). *)
Theorem C68_vbox : forall L I V (u : impl L I) (d : meaning L I V) w i,
  contract u d -> no_zst u d -> wf_blocks (w_blocks w) -> m_ok d w i ->
  match uvbox_new u i w with
  | Ok p w' => exists v, m_makes d i = Some v /\ uobj_at u d w' p v /\
      w_blocks w' = mkB p (m_size d v) (u_align u) true :: without (w_blocks w) (m_frees d i) /\
      wf_blocks (w_blocks w') /\ untouched w w' (m_frees d i) /\
      w_log w' = w_log w ++ EAlloc p (m_size d v) (u_align u) :: m_log d i
  | Panic w' => wf_blocks (w_blocks w') /\ untouched w w' (m_frees d i) /\
      ((forall l, u_cautious u i w = Ok (Some l) w -> ISIZE_MAX < u_lsize u l + (u_align u - 1)) /\
         w_blocks w' = without (w_blocks w) (m_frees d i) /\ w_log w' = w_log w ++ m_idrop d i \/
       exists l p, m_makes d i = None /\ u_cautious u i w = Ok (Some l) w /\
         w_blocks w' = mkB p (u_lsize u l) (u_align u) true :: without (w_blocks w) (m_frees d i) /\
         w_log w' = w_log w ++ EAlloc p (u_lsize u l) (u_align u) :: m_log d i)
  | UB e => e = UNull /\ exists l, u_cautious u i w = Ok (Some l) w /\
      forall p, w_alloc w (w_tick w) (u_lsize u l) (u_align u) = Some p ->
        valid_answer (w_blocks w) p (u_lsize u l) (u_align u) = false
  end.
Proof.
  intros L I V u d w i K Z Hbl Hi. pose proof Z as [_ Z2].
  destruct (uvbox_new_cases u d w i K Z Hbl Hi) as [[(Hl & w' & E & U)|(l & Ec & Hno & E)]|(l & p & w' & Ec & Hv & U & Hb & H)].
  - rewrite E. split; [eapply effect_wf; eauto|]. split; [eapply effect_untouched0; eauto|]. left. split; [exact Hl|]. split; apply U.
  - rewrite E. split; [reflexivity|]. exists l. auto.
  - destruct (new_untouched u w w' p _ _ _ Hbl (Z2 w i l Hi Ec) Hv U Hb) as (Hu & Hbl' & _).
    assert (HL : w_log w' = w_log w ++ EAlloc p (u_lsize u l) (u_align u) :: m_log d i).
    { destruct U as (_ & _ & _ & _ & U). rewrite U. cbn. now rewrite <- app_assoc. }
    destruct (m_makes d i) as [v|].
    + destruct H as (E & Ho & Hs). rewrite E. exists v. rewrite <- Hs. auto 8.
    + rewrite H. split; [exact Hbl'|]. split; [exact Hu|]. right. exists l, p. auto.
Qed.
(** Dropping a box: its value's destructors, once, then its block, with the layout it was allocated
    with; nothing else is touched. Dropping an Owned: only the destructors. *)
Theorem C68_vbox_drop : forall L I V (u : impl L I) (d : meaning L I V) w a v,
  contract u d -> wf_blocks (w_blocks w) -> uobj_at u d w a v ->
  In (mkB a (m_size d v) (u_align u) true) (w_blocks w) ->
  exists w', uvbox_drop u a w = Ok tt w' /\ w_blocks w' = without (w_blocks w) [a] /\ untouched w w' [a] /\
    w_log w' = w_log w ++ m_drops d v ++ [EDealloc a (m_size d v) (u_align u)].
Proof.
  intros L I V u d w a v K Hbl Ho Hb. destruct (uvbox_drop_ok u d w a v K Ho Hb) as (w' & E & U). exists w'.
  split; [exact E|]. split; [apply U|]. split; [eapply effect_untouched0; eauto|apply U].
Qed.
Theorem C68_owned_drop : forall L I V (u : impl L I) (d : meaning L I V) w a v,
  contract u d -> uobj_at u d w a v ->
  exists w', uowned_drop u a w = Ok tt w' /\ w_blocks w' = w_blocks w /\
    same_outside (w_mem w) (w_mem w') a (m_size d v) /\ w_log w' = w_log w ++ m_drops d v.
Proof.
  intros L I V u d w a v K Ho. destruct (uowned_drop_ok u d w a v K Ho) as (w' & E & U). exists w'.
  split; [exact E|]. pose proof U as (_ & U2 & _ & _ & U5). rewrite without_nil in U2. split; [exact U2|]. split; [eapply effect_mem; eauto|exact U5].
Qed.

(** Owned::new_in: the object in one arena block of its size; or a panic after which the initializer
    was dropped, or panicked itself, and the arena block is all that was made. Never undefined
    behaviour, whatever the arena answers. *)
Theorem C68_owned_new : forall L I V (u : impl L I) (d : meaning L I V) w i,
  contract u d -> no_zst u d -> wf_blocks (w_blocks w) -> m_ok d w i ->
  match uowned_new_in u i w with
  | Ok p w' => exists v, m_makes d i = Some v /\ uobj_at u d w' p v /\
      w_blocks w' = mkB p (m_size d v) (u_align u) false :: without (w_blocks w) (m_frees d i) /\
      wf_blocks (w_blocks w') /\ untouched w w' (m_frees d i) /\ w_log w' = w_log w ++ m_log d i
  | Panic w' => wf_blocks (w_blocks w') /\ untouched w w' (m_frees d i) /\
      ((w_blocks w' = without (w_blocks w) (m_frees d i) /\ w_log w' = w_log w ++ m_idrop d i) \/
       (m_makes d i = None /\ w_log w' = w_log w ++ m_log d i /\ exists p n,
          w_blocks w' = mkB p n (u_align u) false :: without (w_blocks w) (m_frees d i)))
  | UB _ => False
  end.
Proof. intros L I V u d. apply uowned_new_ok. Qed.

(** push: the value is appended, the others and everything else in memory stay; or it panics and the
    sequence is as before, either because building panics or because it refused before building. *)
Theorem C68_push : forall L I V (u : impl L I) (d : meaning L I V) w chk s i vs,
  contract u d -> no_zst u d -> wf_blocks (w_blocks w) -> useq_at u d w chk s vs -> upushable d w s i ->
  exists w' s',
    wf_blocks (w_blocks w') /\ untouched w w' (ustore_base s ++ m_frees d i) /\ apart_from w s s' /\
    (forall b, In b (w_blocks w') -> (In b (w_blocks w) /\ ~ In (b_base b) (ustore_base s)) \/ In (b_base b) (ustore_base s')) /\
    (forall b, In b (w_blocks w') -> ~ In (b_base b) (m_frees d i)) /\
    ((useq_push u chk i (w, s) = Ok tt (w', s') /\ exists v, m_makes d i = Some v /\
        useq_at u d w' chk s' (vs ++ [v]) /\
        (chk = true -> umarks u d w s vs -> umarks u d w' s' (vs ++ [v])) /\
        w_log w' = w_log w ++ ugrowth u chk s s' ++ m_log d i) \/
     (useq_push u chk i (w, s) = Panic (w', s') /\ m_makes d i = None /\
        useq_at u d w' chk s' vs /\ (chk = true -> umarks u d w s vs -> umarks u d w' s' vs) /\
        w_log w' = w_log w ++ ugrowth u chk s s' ++ m_log d i) \/
     (useq_push u chk i (w, s) = Panic (w', s) /\ s' = s /\ urefuses u w chk s i /\
        useq_at u d w' chk s vs /\ (chk = true -> umarks u d w s vs -> umarks u d w' s vs) /\
        w_log w' = w_log w ++ m_idrop d i)).
Proof. intros L I V u d. apply upush_ok. Qed.

(** extend: all the values in order, or a panic at the first item whose push panics, with the items
    before it appended. (No item owns memory that a later one refers to.) *)
Definition useparate {L I V} (d : meaning L I V) (is_ : list I) : Prop :=
  ForallOrdPairs (fun i j => forall b, In b (m_holds d j) -> ~ In (b_base b) (m_frees d i)) is_.
Theorem C68_extend : forall L I V (u : impl L I) (d : meaning L I V) chk is_ w s vs,
  contract u d -> no_zst u d -> wf_blocks (w_blocks w) -> useq_at u d w chk s vs ->
  Forall (upushable d w s) is_ -> useparate d is_ ->
  match useq_extend u chk is_ (w, s) with
  | Ok _ (w', s') => exists ws, map (m_makes d) is_ = map Some ws /\ useq_at u d w' chk s' (vs ++ ws) /\
      wf_blocks (w_blocks w') /\ untouched w w' (ustore_base s ++ concat (map (m_frees d) is_)) /\
      (chk = true -> umarks u d w s vs -> umarks u d w' s' (vs ++ ws))
  | Panic (w', s') => exists l1 i l2 ws w1 s1, is_ = l1 ++ i :: l2 /\ map (m_makes d) l1 = map Some ws /\
      useq_extend u chk l1 (w, s) = Ok tt (w1, s1) /\ useq_push u chk i (w1, s1) = Panic (w', s') /\
      useq_at u d w' chk s' (vs ++ ws) /\ wf_blocks (w_blocks w') /\
      untouched w w' (ustore_base s ++ concat (map (m_frees d) (l1 ++ [i]))) /\
      (chk = true -> umarks u d w s vs -> umarks u d w' s' (vs ++ ws))
  | UB _ => False
  end.
Proof.
  intros L I V u d chk is_ w s vs K Z. revert w s vs. unfold useq_extend. induction is_ as [|i is_ IH]; intros w s vs Hbl Hat Hp Hsep; cbn [for_each].
  - exists []. rewrite app_nil_r. split; [reflexivity|]. split; [exact Hat|]. split; [exact Hbl|].
    split; [intros b Hb _; split; auto|auto].
  - inversion Hp as [|i' is' Hi Hp']; subst. inversion Hsep as [|i' is' Hs1 Hs2]; subst. rewrite Forall_forall in Hs1.
    destruct (upush_ok u d w chk s i vs K Z Hbl Hat Hi) as (w1 & s1 & Hbl1 & Hu & Hap & Hnew & Hgone & H).
    destruct H as [(E & v & Em & Hat1 & Hm1 & _)|H].
    + unfold bind. rewrite E.
      assert (Hp1 : Forall (upushable d w1 s1) is_).
      { rewrite Forall_forall in *. intros j Hj. destruct (Hp' j Hj) as [Hj1 Hj2]. specialize (Hs1 j Hj).
        destruct (k_holds u d K w j Hj1) as [Hjh _]. split.
        - eapply (uok_frame u d w w1); [exact K|exact Hu|exact Hj1|]. intros b Hb Hin. apply in_app_iff in Hin.
          destruct Hin as [Hin|Hin]; [exact (Hj2 b Hb Hin)|exact (Hs1 b Hb Hin)].
        - intros b Hb. apply Hap; [apply Hjh, Hb|apply Hj2, Hb]. }
      assert (Htrans : forall w' bs, untouched w1 w' (ustore_base s1 ++ bs) -> untouched w w' (ustore_base s ++ m_frees d i ++ bs)).
      { intros w' bs Hu' b Hb Hn. rewrite !in_app_iff in Hn. destruct (Hu b Hb) as [H1 H2]; [rewrite in_app_iff; tauto|].
        destruct (Hu' b H1) as [H3 H4]; [rewrite in_app_iff; intros [X|X]; [exact (Hap b Hb ltac:(tauto) X)|tauto]|]. split; [exact H3|].
        intros x Hx. rewrite H4, H2 by exact Hx. reflexivity. }
      specialize (IH w1 s1 (vs ++ [v]) Hbl1 Hat1 Hp1 Hs2).
      destruct (for_each (useq_push u chk) is_ (w1, s1)) as [x [w2 s2]|[w2 s2]|]; [| |exact IH].
      * destruct IH as (ws & E1 & E2 & E3 & E4 & E5). rewrite <- app_assoc in E2, E5. exists (v :: ws). cbn [map concat app] in *.
        rewrite Em, E1. split; [reflexivity|]. split; [exact E2|]. split; [exact E3|]. split; [apply Htrans, E4|]. intros Hk Hm. auto.
      * destruct IH as (l1 & j & l2 & ws & w3 & s3 & -> & E1 & E2 & E3 & E4 & E5 & E6 & E7). rewrite <- app_assoc in E4, E7.
        exists (i :: l1), j, l2, (v :: ws), w3, s3. cbn [map concat app for_each] in *. rewrite Em, E1. unfold bind. rewrite E.
        repeat (split; [first [reflexivity|assumption]|]). split; [apply Htrans, E6|]. intros Hk Hm. auto.
    + assert (HP : exists s', useq_push u chk i (w, s) = Panic (w1, s') /\ useq_at u d w1 chk s' vs /\
        (chk = true -> umarks u d w s vs -> umarks u d w1 s' vs)).
      { destruct H as [(E & _ & A & B & _)|(E & -> & _ & A & B & _)]; eauto. }
      destruct HP as (s' & E & A & B). unfold bind. rewrite E. exists [], i, is_, [], w, s. cbn [app map concat for_each]. rewrite !app_nil_r.
      auto 12.
Qed.

(** extend with an iterator that owns its items: as above, and whatever happens no item is leaked. If a
    push panics, the items that were left are dropped, each once and in order; in the end every block
    is one of before that neither the sequence nor an item owned, or the storage of the sequence. *)
Theorem C68_extend_owning : forall L I V (u : impl L I) (d : meaning L I V) chk is_ w s vs,
  contract u d -> no_zst u d -> wf_blocks (w_blocks w) -> useq_at u d w chk s vs ->
  Forall (upushable d w s) is_ -> useparate d is_ ->
  match uextend_owning u chk is_ (w, s) with
  | Ok _ (w', s') => exists ws, useq_extend u chk is_ (w, s) = Ok tt (w', s') /\
      map (m_makes d) is_ = map Some ws /\ useq_at u d w' chk s' (vs ++ ws) /\
      wf_blocks (w_blocks w') /\ untouched w w' (ustore_base s ++ concat (map (m_frees d) is_)) /\
      (forall b, In b (w_blocks w') ->
         (In b (w_blocks w) /\ ~ In (b_base b) (ustore_base s ++ concat (map (m_frees d) is_))) \/
         In (b_base b) (ustore_base s')) /\
      (chk = true -> umarks u d w s vs -> umarks u d w' s' (vs ++ ws))
  | Panic (w', s') => exists l1 i l2 ws w1 s1 w2, is_ = l1 ++ i :: l2 /\ map (m_makes d) l1 = map Some ws /\
      useq_extend u chk l1 (w, s) = Ok tt (w1, s1) /\ useq_push u chk i (w1, s1) = Panic (w2, s') /\
      w_log w' = w_log w2 ++ concat (map (m_idrop d) l2) /\
      useq_at u d w' chk s' (vs ++ ws) /\ wf_blocks (w_blocks w') /\
      untouched w w' (ustore_base s ++ concat (map (m_frees d) is_)) /\
      (forall b, In b (w_blocks w') ->
         (In b (w_blocks w) /\ ~ In (b_base b) (ustore_base s ++ concat (map (m_frees d) is_))) \/
         In (b_base b) (ustore_base s')) /\
      (chk = true -> umarks u d w s vs -> umarks u d w' s' (vs ++ ws))
  | UB _ => False
  end.
Proof.
  intros L I V u d chk is_ w s vs K Z. revert w s vs. unfold useq_extend. induction is_ as [|i is_ IH]; intros w s vs Hbl Hat Hp Hsep; cbn [for_each uextend_owning].
  - exists []. rewrite app_nil_r. split; [reflexivity|]. split; [reflexivity|]. split; [exact Hat|]. split; [exact Hbl|].
    split; [intros b Hb _; split; auto|]. split; [|auto]. cbn [map concat]. rewrite app_nil_r.
    intros b Hb. destruct (in_dec N.eq_dec (b_base b) (ustore_base s)); tauto.
  - inversion Hp as [|i' is' Hi Hp']; subst. inversion Hsep as [|i' is' Hs1 Hs2]; subst. rewrite Forall_forall in Hs1.
    destruct (upush_ok u d w chk s i vs K Z Hbl Hat Hi) as (w1 & s1 & Hbl1 & Hu & Hap & Hnew & Hgone & H).
    assert (Hp1 : Forall (upushable d w1 s1) is_).
    { rewrite Forall_forall in *. intros j Hj. destruct (Hp' j Hj) as [Hj1 Hj2]. specialize (Hs1 j Hj).
      destruct (k_holds u d K w j Hj1) as [Hjh _]. split.
      - eapply (uok_frame u d w w1); [exact K|exact Hu|exact Hj1|]. intros b Hb Hin. apply in_app_iff in Hin.
        destruct Hin as [Hin|Hin]; [exact (Hj2 b Hb Hin)|exact (Hs1 b Hb Hin)].
      - intros b Hb. apply Hap; [apply Hjh, Hb|apply Hj2, Hb]. }
    assert (Htrans : forall w' bs, untouched w1 w' (ustore_base s1 ++ bs) -> untouched w w' (ustore_base s ++ m_frees d i ++ bs)).
    { intros w' bs Hu' b Hb Hn. rewrite !in_app_iff in Hn. destruct (Hu b Hb) as [H1 H2]; [rewrite in_app_iff; tauto|].
      destruct (Hu' b H1) as [H3 H4]; [rewrite in_app_iff; intros [X|X]; [exact (Hap b Hb ltac:(tauto) X)|tauto]|]. split; [exact H3|].
      intros x Hx. rewrite H4, H2 by exact Hx. reflexivity. }
    assert (Hblocks : forall bl s2 bs, (forall b, In b bl -> (In b (w_blocks w1) /\ ~ In (b_base b) (ustore_base s1 ++ bs)) \/ In (b_base b) (ustore_base s2)) ->
      forall b, In b bl -> (In b (w_blocks w) /\ ~ In (b_base b) (ustore_base s ++ m_frees d i ++ bs)) \/ In (b_base b) (ustore_base s2)).
    { intros bl s2 bs HB b Hb. destruct (HB b Hb) as [[H1 H2]|H1]; [|right; exact H1]. left. rewrite in_app_iff in H2.
      destruct (Hnew b H1) as [[H3 H4]|H3]; [|tauto]. pose proof (Hgone b H1). split; [exact H3|]. rewrite !in_app_iff. tauto. }
    destruct H as [(E & v & Em & Hat1 & Hm1 & _)|H].
    + unfold bind, on_unwind. rewrite E.
      specialize (IH w1 s1 (vs ++ [v]) Hbl1 Hat1 Hp1 Hs2).
      destruct (uextend_owning u chk is_ (w1, s1)) as [x [w2 s2]|[w2 s2]|]; [| |exact IH].
      * destruct IH as (ws & E0 & E1 & E2 & E3 & E4 & E6 & E5). rewrite <- app_assoc in E2, E5. exists (v :: ws). cbn [map concat app] in *.
        rewrite Em, E1. split; [exact E0|]. split; [reflexivity|]. split; [exact E2|]. split; [exact E3|]. split; [apply Htrans, E4|].
        split; [apply (Hblocks _ _ _ E6)|]. intros Hk Hm. auto.
      * destruct IH as (l1 & j & l2 & ws & w3 & s3 & w4 & -> & E1 & E2 & E3 & E8 & E4 & E5 & E6 & E9 & E7). rewrite <- app_assoc in E4, E7.
        exists (i :: l1), j, l2, (v :: ws), w3, s3, w4. cbn [map concat app for_each] in *. rewrite Em, E1. unfold bind. rewrite E.
        repeat (split; [first [reflexivity|assumption]|]). split; [apply Htrans, E6|]. split; [apply (Hblocks _ _ _ E9)|]. intros Hk Hm. auto.
    + assert (HP : exists s', useq_push u chk i (w, s) = Panic (w1, s') /\ s' = s1 /\ useq_at u d w1 chk s' vs /\
        (chk = true -> umarks u d w s vs -> umarks u d w1 s' vs)).
      { destruct H as [(E & _ & A & B & _)|(E & -> & _ & A & B & _)]; eauto 8. }
      destruct HP as (s' & E & -> & A & B).
      destruct (udrop_all_ok u d is_ K w1 Hbl1) as (w2 & E2 & Hbl2 & B2 & Hu2 & L2); [|exact Hs2|].
      { rewrite Forall_forall in *. intros j Hj. apply (Hp1 j Hj). }
      assert (Hst : forall p, In p (ustore_base s1) -> ~ In p (concat (map (m_frees d) is_))).
      { intros p Hps Hin. apply in_concat in Hin. destruct Hin as (l & Hl & Hin). apply in_map_iff in Hl. destruct Hl as (j & <- & Hj).
        rewrite Forall_forall in Hp1. destruct (Hp1 j Hj) as [Hj1 Hj2]. destruct (k_holds u d K w1 j Hj1) as [_ Hjf].
        apply Hjf, in_map_iff in Hin. destruct Hin as (b & <- & Hb). exact (Hj2 b Hb Hps). }
      destruct (useq_frame u d w1 w2 _ chk s1 vs K Hu2 A Hst) as [A' B'].
      unfold bind, on_unwind. rewrite E. unfold lft. rewrite E2. exists [], i, is_, [], w, s, w1. cbn [app map concat for_each].
      rewrite !app_nil_r. split; [reflexivity|]. split; [reflexivity|]. split; [reflexivity|]. split; [exact E|]. split; [exact L2|].
      split; [exact A'|]. split; [exact Hbl2|].
      split; [apply Htrans; eapply untouched_more; [exact Hu2|apply incl_appr, incl_refl]|]. split; [|auto].
      apply Hblocks. intros b Hb. rewrite B2 in Hb. apply in_without in Hb. destruct Hb as [Hb Hn].
      destruct (in_dec N.eq_dec (b_base b) (ustore_base s1)); [right; assumption|left]. split; [exact Hb|]. rewrite in_app_iff. tauto.
Qed.

(** Iterating: every element once, in order, each a valid object at its own address; from_offset gives
    exactly these addresses and panics on every other offset. *)
Theorem C68_iter : forall L I V (u : impl L I) (d : meaning L I V) w chk s vs,
  contract u d -> wf_blocks (w_blocks w) -> useq_at u d w chk s vs ->
  uiter_collect u (Datatypes.S (length vs)) (seq_iter s) w = Ok (uaddrs u d (s_ptr s) vs) w /\
  Forall2 (uobj_at u d w) (uaddrs u d (s_ptr s) vs) vs.
Proof.
  intros L I V u d w chk s vs K Hbl Hat. pose proof (useq_iter_at u d w chk s vs K Hbl Hat) as Hit. split.
  - apply (uiter_collect_ok u d w (seq_iter s) vs); [exact K|exact Hit|lia].
  - apply uobjs_forall, Hit.
Qed.
Theorem C68_from_offset : forall L I V (u : impl L I) (d : meaning L I V) w s vs o,
  contract u d -> no_zst u d -> wf_blocks (w_blocks w) -> useq_at u d w true s vs -> umarks u d w s vs ->
  (In o (ustarts (u_align u) (map (m_size d) vs) 0) /\ ufrom_offset u s o w = Ok (s_ptr s + o * u_align u) w) \/
  (~ In o (ustarts (u_align u) (map (m_size d) vs) 0) /\ ufrom_offset u s o w = Panic w).
Proof. intros L I V u d. apply ufrom_offset_ok. Qed.

(** offset_of: the offset of an element; a panic on a reference from outside the elements. *)
Theorem C68_offset_of : forall L I V (u : impl L I) (d : meaning L I V) w chk s vs,
  contract u d -> no_zst u d -> wf_blocks (w_blocks w) -> useq_at u d w chk s vs ->
  (forall o, In o (ustarts (u_align u) (map (m_size d) vs) 0) ->
     uoffset_of u s (s_ptr s + o * u_align u) w = Ok o w) /\
  (forall e, e < W -> e < s_ptr s \/ s_ptr s + utotal (u_align u) (map (m_size d) vs) * u_align u <= e ->
     uoffset_of u s e w = Panic w).
Proof.
  intros L I V u d w chk s vs K Z Hbl Hat. pose proof (pow2_pos _ (k_align u d K)) as Hp.
  pose proof (useq_iter_at u d w chk s vs K Hbl Hat) as (_ & HW & _). cbn [seq_iter it_ptr] in HW.
  pose proof Hat as (A1 & A2 & A3 & A4). rewrite <- A2 in *. split.
  - intros o Hin. assert (Hv : Forall (fun n => 0 < n) (map (m_size d) vs)).
    { destruct A4 as [[_ ->]|(_ & _ & _ & _ & B5 & _)]; [constructor|eapply uvalues_pos; eauto]. }
    pose proof (ustarts_lt _ _ 0 o Hp Hv Hin) as Hlt. unfold uoffset_of.
    assert (E : wrapping_sub (s_ptr s + o * u_align u) (s_ptr s) = o * u_align u).
    { unfold wrapping_sub. rewrite (N.mod_small (s_ptr s)) by lia.
      replace (s_ptr s + o * u_align u + (W - s_ptr s)) with (o * u_align u + 1 * W) by lia.
      rewrite N.mod_add by (rewrite W_eq; lia). apply N.mod_small. nia. }
    rewrite E, N.div_mul by lia. destruct (N.leb_spec (s_occ s) o); [lia|reflexivity].
  - intros e He Hout. unfold uoffset_of.
    assert (H : s_occ s * u_align u <= wrapping_sub e (s_ptr s)).
    { unfold wrapping_sub. rewrite (N.mod_small (s_ptr s)) by lia. destruct Hout as [H|H].
      - rewrite N.mod_small by lia. lia.
      - replace (e + (W - s_ptr s)) with ((e - s_ptr s) + 1 * W) by lia.
        rewrite N.mod_add by (rewrite W_eq; lia). rewrite N.mod_small by lia. lia. }
    assert (s_occ s <= wrapping_sub e (s_ptr s) / u_align u) by (apply N.div_le_lower_bound; lia).
    destruct (N.leb_spec (s_occ s) (wrapping_sub e (s_ptr s) / u_align u)); [reflexivity|lia].
Qed.

(** take_elems: an empty sequence and an iterator over the values; dropping it drops each once, in
    order; likewise if some elements have been taken from it, of which some were dropped and the others
    forgotten. Dropping the sequence also frees its block, with the layout it was allocated with. *)
Theorem C68_take_elems : forall L I V (u : impl L I) (d : meaning L I V) w chk s vs,
  contract u d -> wf_blocks (w_blocks w) -> useq_at u d w chk s vs ->
  exists w1 s1 it, utake_elems u chk (w, s) = Ok it (w1, s1) /\ useq_at u d w1 chk s1 [] /\
    uiter_collect u (Datatypes.S (length vs)) it w1 = Ok (uaddrs u d (s_ptr s) vs) w1 /\
    Forall2 (uobj_at u d w1) (uaddrs u d (s_ptr s) vs) vs /\
    exists w2, uowned_elems_drop u it w1 = Ok tt w2 /\ w_blocks w2 = w_blocks w /\ useq_at u d w2 chk s1 [] /\
      w_log w2 = w_log w ++ concat (map (m_drops d) vs).
Proof.
  intros L I V u d w chk s vs K Hbl Hat. destruct (utake_ok u d w chk s vs K Hbl Hat) as (w1 & E & Hs & Hit & Hat1).
  exists w1, (mkS (s_ptr s) 0 0 (s_cap s)), (seq_iter s). split; [exact E|]. split; [exact Hat1|].
  split; [apply (uiter_collect_ok u d w1 (seq_iter s) vs); [exact K|exact Hit|lia]|]. split; [apply uobjs_forall, Hit|].
  destruct (uelems_drop_ok u d w1 (seq_iter s) vs K Hit) as (w2 & E2 & U). pose proof (effect_mem _ _ _ _ _ U) as U1.
  destruct U as (_ & U2 & _ & _ & U5). rewrite without_nil in U2. destruct Hs as (_ & B2 & _ & _ & B5).
  exists w2. split; [exact E2|]. split; [congruence|]. split; [|unfold udrops in U5; congruence].
  destruct Hat1 as (A1 & A2 & A3 & A4). split; [exact A1|]. split; [exact A2|]. split; [exact A3|].
  destruct A4 as [A4|(C1 & C2 & C3 & C4 & C5 & C6)]; [left; exact A4|right]. repeat split; auto.
  - rewrite U2. exact C2.
  - cbn [s_cap s_ptr] in *. intros Hk j Hj. rewrite U1; [apply C6; auto|]. right. cbn [seq_iter it_ptr].
    destruct Hat as (_ & Ho & Hc & _). rewrite <- Ho. pose proof (pow2_pos _ (k_align u d K)). nia.
Qed.
Theorem C68_drain : forall L I V (u : impl L I) (d : meaning L I V) w chk forget s vs,
  contract u d -> wf_blocks (w_blocks w) -> useq_at u d w chk s vs ->
  exists w' s', udrain u chk forget (w, s) = Ok tt (w', s') /\ w_blocks w' = w_blocks w /\
    untouched w w' (ustore_base s) /\ useq_at u d w' chk s' [] /\
    w_log w' = w_log w ++ unforgotten d forget vs.
Proof.
  intros L I V u d w chk forget s vs K Hbl Hat. destruct (udrain_ok u d w chk s vs forget K Hbl Hat) as (w' & H1 & H2 & H3 & H4 & H5).
  eauto 8.
Qed.
Theorem C68_seq_drop : forall L I V (u : impl L I) (d : meaning L I V) w chk s vs,
  contract u d -> wf_blocks (w_blocks w) -> useq_at u d w chk s vs ->
  exists w' s', useq_drop u chk (w, s) = Ok tt (w', s') /\
    w_blocks w' = without (w_blocks w) (ustore_base s) /\ untouched w w' (ustore_base s) /\
    w_log w' = w_log w ++ concat (map (m_drops d) vs) ++
      (if s_cap s =? 0 then [] else [EDealloc (s_ptr s) (ustorage (u_align u) chk (s_cap s)) (u_align u)]).
Proof.
  intros L I V u d w chk s vs K Hbl Hat. destruct (useq_drop_ok u d w chk s vs K Hbl Hat) as (w' & s' & E & U).
  exists w', s'. split; [exact E|]. split; [apply U|]. split; [eapply effect_untouched0; eauto|]. apply U.
Qed.

(** Whole programs: whatever boxes, Owned values and sequences of T a program creates, fills, drains,
    drops and forgets, in any order and catching the panics, every live box and Owned holds its value,
    every live sequence its elements, no two of them share storage, *)
Theorem C68_history : forall L I V (u : impl L I) (d : meaning L I V) w bx ss n,
  contract u d -> no_zst u d -> uhist u d w bx ss n ->
  wf_blocks (w_blocks w) /\
  (forall b p v, In (b, p, v) bx -> uobj_at u d w p v /\ In (mkB p (m_size d v) (u_align u) b) (w_blocks w)) /\
  (forall chk s vs, In (chk, s, vs) ss -> useq_at u d w chk s vs /\ (chk = true -> umarks u d w s vs)) /\
  NoDup (map hbase bx ++ stores ss).
Proof.
  intros L I V u d w bx ss n K Z H. destruct (uhist_inv u d w bx ss n K Z H) as [(H1 & H2 & H3 & H4) _].
  rewrite Forall_forall in H2, H3. split; [exact H1|]. split; [|split; [|exact H4]].
  - intros b p v Hin. exact (H2 _ Hin).
  - intros chk s vs Hin. exact (H3 _ Hin).
Qed.
(** every heap block belongs to exactly one of the live boxes and sequences, except for as many as were
    there at the start, were forgotten, or were left by a VBox::new whose initializer panicked, *)
Theorem C68_no_leak : forall L I V (u : impl L I) (d : meaning L I V) w bx ss n,
  contract u d -> no_zst u d -> uhist u d w bx ss n ->
  exists others, (length others <= n)%nat /\
    forall b, In b (w_blocks w) -> b_heap b = true ->
      In (b_base b) (map hbase bx) \/ In (b_base b) (stores ss) \/ In (b_base b) others.
Proof.
  intros L I V u d w bx ss n K Z H. destruct (uhist_inv u d w bx ss n K Z H) as [_ (others & Hl & HC)].
  exists others. split; [exact Hl|]. intros b Hb Hh. specialize (HC b Hb Hh). rewrite !in_app_iff in HC. tauto.
Qed.
Corollary C68_all_freed : forall L I V (u : impl L I) (d : meaning L I V) w,
  contract u d -> no_zst u d -> uhist u d w [] [] 0 -> forall b, In b (w_blocks w) -> b_heap b = false.
Proof.
  intros L I V u d w K Z H b Hb. destruct (C68_no_leak _ _ _ u d w [] [] 0%nat K Z H) as ([|x l] & Hl & HC); [|cbn in Hl; lia].
  destruct (b_heap b) eqn:E; [|reflexivity]. destruct (HC b Hb E) as [[]|[[]|[]]].
Qed.
(** and none of its operations is undefined behaviour, unless VBox::new meets an allocator failure. *)
Theorem C68_no_UB : forall L I V (u : impl L I) (d : meaning L I V) w bx ss n,
  contract u d -> no_zst u d -> uhist u d w bx ss n ->
  (forall i e, m_ok d w i -> (uvbox_new u i w = UB e -> e = UNull) /\ uowned_new_in u i w <> UB e) /\
  (forall b p v, In (b, p, v) bx -> exists w', (if b then uvbox_drop u p w else uowned_drop u p w) = Ok tt w') /\
  (forall chk s vs, In (chk, s, vs) ss ->
     (forall i e, upushable d w s i -> useq_push u chk i (w, s) <> UB e) /\
     (forall o e, chk = true -> ufrom_offset u s o w <> UB e) /\
     (exists as_, uiter_collect u (Datatypes.S (length vs)) (seq_iter s) w = Ok as_ w) /\
     (forall forget, exists x, udrain u chk forget (w, s) = Ok tt x) /\
     (exists x, useq_drop u chk (w, s) = Ok tt x)).
Proof.
  intros L I V u d w bx ss n K Z H. destruct (C68_history _ _ _ u d w bx ss n K Z H) as (Hbl & Hb & Hs & _). split; [|split].
  - intros i e Hi. split.
    + intros E. pose proof (C68_vbox _ _ _ u d w i K Z Hbl Hi) as X. rewrite E in X. apply X.
    + intros E. pose proof (C68_owned_new _ _ _ u d w i K Z Hbl Hi) as X. now rewrite E in X.
  - intros b p v Hin. destruct (Hb b p v Hin) as [H1 H2]. destruct b.
    + destruct (C68_vbox_drop _ _ _ u d w p v K Hbl H1 H2) as (w' & E & _). eauto.
    + destruct (C68_owned_drop _ _ _ u d w p v K H1) as (w' & E & _). eauto.
  - intros chk s vs Hin. destruct (Hs chk s vs Hin) as [H1 H2]. split; [|split; [|split; [|split]]].
    + intros i e Hi E. destruct (upush_ok u d w chk s i vs K Z Hbl H1 Hi) as (w' & s' & _ & _ & _ & _ & _ & [(X & _)|[(X & _)|(X & _)]]); congruence.
    + intros o e -> E. destruct (C68_from_offset _ _ _ u d w s vs o K Z Hbl H1 (H2 eq_refl)) as [[_ X]|[_ X]]; congruence.
    + eexists. eapply C68_iter; eauto.
    + intros forget. destruct (C68_drain _ _ _ u d w chk forget s vs K Hbl H1) as (w' & s' & X & _). eauto.
    + destruct (C68_seq_drop _ _ _ u d w chk s vs K Hbl H1) as (w' & s' & X & _). eauto.
Qed.

(** ** A program over zero-terminated strings *)

(** Their initializers: byte strings and boxes of them. *)
Definition cb : impl N (boxed (list N) (list N)) := with_boxes (list N) cs_impl.
Definition cbd : meaning N (boxed (list N) (list N)) (list N) := boxed_meaning cs_impl cs_meaning.
Lemma cb_contract : contract cb cbd. Proof. apply C68_boxes, cs_contract. Qed.
Lemma cb_no_zst : no_zst cb cbd.
Proof.
  split; [apply cs_no_zst|]. intros w [i|a v] l Hi E; [exact (proj2 cs_no_zst w i l Hi E)|].
  cbn in Hi. destruct (k_calc _ _ cs_contract w a v (proj1 Hi)) as (l' & E' & Hl). cbn [cb with_boxes u_cautious u_lsize] in *.
  rewrite (bind_ok _ _ _ _ _ (uderef cs_impl cs_meaning w a v cs_contract (proj1 Hi))), (bind_ok _ _ _ _ _ E') in E.
  injection E as <-. rewrite Hl. cbn. lia.
Qed.
(** A box of "hi", moved into a sequence; then "a"; then a string that is refused. *)
Definition hw1 : world := match uvbox_new cb (Own [104; 105]) w_start with Ok _ w => w | _ => w_start end.
Definition hx2 : world * sq := match useq_push cb true (Moved 4096 [104; 105]) (hw1, useq_new cb) with Ok _ x => x | _ => (hw1, useq_new cb) end.
Definition hx3 : world * sq := match useq_push cb true (Own [97]) hx2 with Ok _ x => x | _ => hx2 end.
Definition hx4 : world * sq := match useq_push cb true (Own [97; 0]) hx3 with Panic x => x | _ => hx3 end.
Lemma hw1_eq : uvbox_new cb (Own [104; 105]) w_start = Ok 4096 hw1.
Proof.
  assert (H : match uvbox_new cb (Own [104; 105]) w_start with Ok p _ => p = 4096 | _ => False end) by (vm_compute; reflexivity).
  unfold hw1. destruct (uvbox_new cb (Own [104; 105]) w_start); [now subst|contradiction|contradiction].
Qed.
Lemma hx2_eq : useq_push cb true (Moved 4096 [104; 105]) (hw1, useq_new cb) = Ok tt hx2.
Proof.
  assert (H : match useq_push cb true (Moved 4096 [104; 105]) (hw1, useq_new cb) with Ok _ _ => True | _ => False end) by (vm_compute; exact Logic.I).
  unfold hx2. destruct (useq_push cb true (Moved 4096 [104; 105]) (hw1, useq_new cb)) as [[] x| |]; [reflexivity|contradiction|contradiction].
Qed.
Lemma hx3_eq : useq_push cb true (Own [97]) hx2 = Ok tt hx3.
Proof.
  assert (H : match useq_push cb true (Own [97]) hx2 with Ok _ _ => True | _ => False end) by (vm_compute; exact Logic.I).
  unfold hx3. destruct (useq_push cb true (Own [97]) hx2) as [[] x| |]; [reflexivity|contradiction|contradiction].
Qed.
Lemma hx4_eq : useq_push cb true (Own [97; 0]) hx3 = Panic hx4.
Proof.
  assert (H : match useq_push cb true (Own [97; 0]) hx3 with Panic _ => True | _ => False end) by (vm_compute; exact Logic.I).
  unfold hx4. destruct (useq_push cb true (Own [97; 0]) hx3) as [[] x| |]; [contradiction|reflexivity|contradiction].
Qed.
Lemma hands_own (w : world) (bx : list (bool * N * list N)) ss (v : list N) : hands_over cbd w bx bx ss (Own v).
Proof. split; [exact Logic.I|]. split; [exists []; split; [reflexivity|intros e []]|]. intros p []. Qed.
Lemma push_own (w : world) s (v : list N) : upushable cbd w s (Own v).
Proof. split; [exact Logic.I|]. intros b []. Qed.
Example C68_history_concrete :
  uhist cb cbd (fst hx4) [] [(true, snd hx4, [[104; 105]; [97]])] 0 /\
  ufrom_offset cb (snd hx4) 3 (fst hx4) = Ok (s_ptr (snd hx4) + 3 * 1) (fst hx4) /\
  ufrom_offset cb (snd hx4) 1 (fst hx4) = Panic (fst hx4) /\
  match useq_drop cb true hx4 with
  | Ok _ (w, _) => w_blocks w = [] /\ count_occ N.eq_dec (map (fun e => match e with EDrop c => len c | _ => 0 end) (w_log w)) 2 = 1%nat
  | _ => False
  end.
Proof.
  assert (H1 : uhist cb cbd hw1 [(true, 4096, [104; 105])] [] 0).
  { eapply (uh_box cb cbd w_start [] [] [] 0 (Own [104; 105])); [apply uh_start, w_start_ok|apply hands_own|exact hw1_eq|reflexivity]. }
  apply (uh_seq cb cbd _ _ _ _ true) in H1.
  destruct (C68_history _ _ _ cb cbd _ _ _ _ cb_contract cb_no_zst H1) as (_ & Hb & _).
  specialize (Hb true 4096 [104; 105] (or_introl eq_refl)).
  assert (H2 : uhist cb cbd (fst hx2) [] [(true, snd hx2, [[104; 105]])] 0).
  { eapply (uh_push cb cbd hw1 _ [] [] true (useq_new cb) [] [] 0 (Moved 4096 [104; 105])); [exact H1| | | |reflexivity].
    - split; [exact Hb|]. split; [exists [(true, 4096, [104; 105])]; split; [reflexivity|intros e [<-|[]]; left; reflexivity]|]. intros p _ [].
    - split; [exact Hb|]. intros b _ [].
    - rewrite hx2_eq. now destruct hx2. }
  assert (H3 : uhist cb cbd (fst hx3) [] [(true, snd hx3, [[104; 105]; [97]])] 0).
  { eapply (uh_push cb cbd (fst hx2) [] [] [] true (snd hx2) [[104; 105]] [] 0 (Own [97])); [exact H2|apply hands_own|apply push_own| |reflexivity].
    rewrite <- surjective_pairing, hx3_eq. now destruct hx3. }
  assert (H4 : uhist cb cbd (fst hx4) [] [(true, snd hx4, [[104; 105]; [97]])] 0).
  { eapply (uh_push_panic cb cbd (fst hx3) [] [] [] true (snd hx3) [[104; 105]; [97]] [] 0 (Own [97; 0])); [exact H3|apply hands_own|apply push_own|].
    rewrite <- surjective_pairing, hx4_eq. now destruct hx4. }
  split; [exact H4|].
  destruct (C68_history _ _ _ cb cbd _ _ _ _ cb_contract cb_no_zst H4) as (Hbl & _ & Hs & _).
  destruct (Hs true (snd hx4) _ (or_introl eq_refl)) as [Hat Hm]. specialize (Hm eq_refl).
  pose proof (C68_from_offset _ _ _ cb cbd (fst hx4) (snd hx4) _ 3 cb_contract cb_no_zst Hbl Hat Hm) as X3.
  pose proof (C68_from_offset _ _ _ cb cbd (fst hx4) (snd hx4) _ 1 cb_contract cb_no_zst Hbl Hat Hm) as X1.
  change (ustarts (u_align cb) (map (m_size cbd) [[104; 105]; [97]]) 0) with [0; 3] in X1, X3.
  split; [destruct X3 as [[_ X]|[X _]]; [exact X|exfalso; apply X; right; left; reflexivity]|].
  split; [destruct X1 as [[[X|[X|[]]] _]|[_ X]]; [discriminate|discriminate|exact X]|].
  vm_compute. split; reflexivity.
Qed.

(** The contract is needed: with a calculate_layout that forgets the terminator, a box is freed with a
    layout it was not allocated with. *)
Example C68_contract_needed_concrete :
  match uvbox_new cs_wrong [104; 105] w_start with
  | Ok p w => match uvbox_drop cs_wrong p w with UB UDealloc => True | _ => False end
  | _ => False
  end.
Proof. vm_compute. exact Logic.I. Qed.
(** The hypotheses of C68_crate_types at the example type: a box as the initializer. *)
Example C68_crate_concrete :
  contract (with_held (crate_impl t_ex)) (crate_meaning t_ex) /\
  m_ok (crate_meaning t_ex) w_ex (IBox 4096 v_ex, [mkB 4096 52 8 true]) /\
  m_makes (crate_meaning t_ex) (IBox 4096 v_ex, [mkB 4096 52 8 true]) = Some v_ex.
Proof.
  split; [apply C68_crate_types, t_ex_wf|]. split; [|reflexivity]. split; cbn [snd fst].
  - rewrite w_ex_blocks. apply incl_refl.
  - rewrite <- w_ex_blocks. destruct v_ex_at as (Hv & Hp & Hr). split; [exact Hv|]. split; [repeat constructor; intros []|].
    change (In (box_block t_ex 4096 v_ex) (w_blocks w_ex) /\ src_ok (w_blocks w_ex) (w_mem w_ex) t_ex 4096 v_ex /\
            apart 4096 (vsize t_ex v_ex) 0 0).
    split; [rewrite w_ex_blocks; left; reflexivity|]. split; [split; assumption|]. right. left. reflexivity.
Qed.
(** Owned::new_in and offset_of on them: the second string of the sequence is at offset 3. *)
Example C68_owned_concrete :
  match uowned_new_in cs_impl [104; 105] w_start with
  | Ok p w => p = 4096 /\ w_blocks w = [mkB 4096 3 1 false]
  | _ => False
  end /\
  uoffset_of cb (snd hx4) (s_ptr (snd hx4) + 3) (fst hx4) = Ok 3 (fst hx4) /\
  uoffset_of cb (snd hx4) (s_ptr (snd hx4) + 40) (fst hx4) = Panic (fst hx4).
Proof.
  split; [vm_compute; split; reflexivity|].
  assert (H : match uoffset_of cb (snd hx4) (s_ptr (snd hx4) + 3) w_start with Ok o _ => o = 3 | _ => False end) by (vm_compute; reflexivity).
  assert (H' : match uoffset_of cb (snd hx4) (s_ptr (snd hx4) + 40) w_start with Panic _ => True | _ => False end) by (vm_compute; exact Logic.I).
  unfold uoffset_of in *. generalize (fst hx4). intros w. cbv zeta in *.
  split.
  - destruct (s_occ (snd hx4) <=? wrapping_sub (s_ptr (snd hx4) + 3) (s_ptr (snd hx4)) / u_align cb); [contradiction|].
    unfold ret in *. now rewrite H.
  - destruct (s_occ (snd hx4) <=? wrapping_sub (s_ptr (snd hx4) + 40) (s_ptr (snd hx4)) / u_align cb); [reflexivity|contradiction].
Qed.
(** extend from a vector of a string, a string that is refused, and two boxes: the first is in the
    sequence, the other three were dropped, in order. *)
Example C68_extend_owning_concrete :
  match uvbox_new cb (Own [104; 105]) w_start with
  | Ok p w => match uvbox_new cb (Own [97]) w with
    | Ok q w => match uextend_owning cb false [Own [98; 99]; Own [97; 0]; Moved p [104; 105]; Moved q [97]] (w, useq_new cb) with
      | Panic (w, s) => s_len s = 1 /\ map b_base (w_blocks w) = [s_ptr s] /\
          flat_map (fun e => match e with EDrop c => [c] | _ => [] end) (w_log w) =
            map cs_bytes [[97; 0]; [104; 105]; [97]]
      | _ => False
      end
    | _ => False
    end
  | _ => False
  end.
Proof. vm_compute. repeat split; reflexivity. Qed.
(** Two strings pushed; the first is taken and forgotten, the second dropped with the iterator. *)
Example C68_drain_concrete :
  match (useq_push cb false (Own [104; 105]) ;;; useq_push cb false (Own [97]) ;;; udrain cb false [true])
          (w_start, useq_new cb) with
  | Ok _ (w, s) => s_len s = 0 /\ length (w_blocks w) = 1%nat /\
      flat_map (fun e => match e with EDrop c => [c] | _ => [] end) (w_log w) =
      flat_map (fun e => match e with EDrop c => [c] | _ => [] end) (unforgotten cbd [true] [[104; 105]; [97]])
      /\ length (flat_map (fun e => match e with EDrop c => [c] | _ => [] end) (w_log w)) = 1%nat
  | _ => False
  end.
Proof. vm_compute. repeat split; reflexivity. Qed.
