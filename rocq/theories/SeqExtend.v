(** SeqExtend.v - extend, collect, seq!. *)
From Verif Require Export SeqDrop.

Lemma NoDup_app_l {A} (l1 l2 : list A) : NoDup (l1 ++ l2) -> NoDup l1.
Proof. induction l1 as [|x l1 IH]; intros H; [constructor|]. inversion H; subst. constructor; auto. intros Hi. apply H2, in_or_app; auto. Qed.
Lemma NoDup_app_r {A} (l1 l2 : list A) : NoDup (l1 ++ l2) -> NoDup l2.
Proof. induction l1 as [|x l1 IH]; intros H; [exact H|]. inversion H; auto. Qed.
Lemma NoDup_app_dis {A} (l1 l2 : list A) x : NoDup (l1 ++ l2) -> In x l1 -> In x l2 -> False.
Proof. induction l1 as [|y l1 IH]; intros H H1 H2; [contradiction|]. inversion H; subst. destruct H1 as [->|H1]; [apply H4, in_or_app; auto|eauto]. Qed.

Lemma isrc_mono t i bl bl' bl'' m D n : isrc bl bl' m D n t i -> incl bl' bl'' -> isrc bl bl'' m D n t i.
Proof.
  intros H Hi. apply isrc_srcs. apply isrc_srcs in H. rewrite Forall_forall in *. intros (((t', a), v), b) Hin.
  specialize (H _ Hin). cbn [src_cond] in *. destruct b; [exact H|]. destruct H as [((P0 & Pm & PW & Pl) & Hr) Ha].
  split; [|exact Ha]. split; [|exact Hr]. repeat split; auto. eapply live_incl; eauto.
Qed.
Lemma inits_head w t chk s i is_ : inits_ready w t chk s (i :: is_) -> push_ready w t chk s i.
Proof.
  intros (H1 & H2). inversion H2 as [|? ? [Hi Hs] _]; subst. unfold all_bases in *. cbn [map concat] in *.
  split; [exact Hi|]. split; [eapply NoDup_app_l; eauto|]. eapply isrc_mono; [exact Hs|].
  intros b Hb. apply in_without in Hb. apply in_without. split; [apply Hb|]. intros Hin. apply Hb, in_or_app. auto.
Qed.

(** A live range outside the storage and the boxes of the pushed initializer is unaffected. *)
Lemma range_after t chk w s i vs0 vs w' s' a k bk :
  wf_ty t -> wf_blocks (w_blocks w) -> seq_at w t chk s vs0 -> push_inv t chk w s i vs0 vs w' s' ->
  In bk (w_blocks w) -> b_base bk <= a -> a + k <= b_base bk + b_size bk -> 0 < k ->
  ~ In (b_base bk) (ibases t i) -> apart a k (s_ptr s) (seq_bytes t chk s) ->
  In bk (w_blocks w') /\ (forall x, a <= x < a + k -> w_mem w' x = w_mem w x) /\ apart a k (s_ptr s') (seq_bytes t chk s').
Proof.
  intros Hwf Hbl Hat (I1 & I2 & I3 & I4 & I5 & I6) Hb L1 L2 Hk Hnb Ha.
  assert (Hns : ~ In (b_base bk) (seq_base s)).
  { intros H. destruct (old_blocks t chk w s vs0 bk Hbl Hat Hb) as [[Hc ->]|H']; [|contradiction].
    rewrite seq_bytes_pos in Ha by auto. cbn [seq_block b_base b_size] in *. unfold apart in Ha.
    pose proof (storage_pos t chk (s_cap s) Hwf Hc). lia. }
  destruct (I3 bk Hb) as [J1 J2]; [rewrite in_app_iff; tauto|].
  split; [exact J1|]. split; [intros x Hx; apply J2; lia|].
  destruct (N.eq_dec (s_cap s') 0) as [E|E]; [rewrite seq_bytes_0 by auto; right; left; reflexivity|].
  rewrite seq_bytes_pos by lia.
  destruct I1 as (_ & _ & _ & [[[E' _] _]|(B1 & B2 & _)]); [lia|].
  assert (Hd : blocks_apart (seq_block t chk s') bk).
  { apply (wf_blocks_disj (w_blocks w')); [exact I2|exact B2|exact J1|]. cbn [seq_block b_base]. intros Eb. apply Hns. apply I5; auto. }
  unfold blocks_apart in Hd. cbn [seq_block b_base b_size] in Hd. unfold apart. lia.
Qed.

Lemma inits_tail t chk w s i is_ vs0 vs w' s' :
  wf_ty t -> wf_blocks (w_blocks w) -> seq_at w t chk s vs0 -> push_inv t chk w s i vs0 vs w' s' ->
  inits_ready w t chk s (i :: is_) -> inits_ready w' t chk s' is_.
Proof.
  intros Hwf Hbl Hat Hpi (H1 & H2). unfold all_bases in *. cbn [map concat] in *.
  split; [eapply NoDup_app_r; eauto|]. inversion H2 as [|? ? _ H3]; subst.
  rewrite Forall_forall in *. intros j Hj. destruct (H3 j Hj) as [Hjw Hjs]. split; [exact Hjw|].
  pose proof (proj1 srcs_wt t Hwf j Hjw) as Hsw.
  assert (Hboxj : forall b, In b (iboxes t j) -> ~ In (b_base b) (ibases t i)).
  { intros b Hb Hi. apply (NoDup_app_dis _ _ _ H1 Hi). apply in_concat. exists (ibases t j). split.
    - apply in_map, Hj. - unfold ibases. apply in_map, Hb. }
  apply isrc_srcs. apply isrc_srcs in Hjs. rewrite Forall_forall in *. intros (((t', a), v), b) Hin.
  specialize (Hjs _ Hin). destruct (Hsw _ Hin) as [Hwf' Hv]. cbn [src_cond] in *. destruct b.
  - destruct Hjs as (B1 & ((P0 & Pm & PW & Pl) & Hr) & Ha).
    pose proof (wf_block_in _ _ Hbl B1) as (C0 & C1 & C2). cbn [box_block b_base b_size] in *.
    destruct (range_after t chk w s i vs0 vs w' s' a (vsize t' v) (box_block t' a v) Hwf Hbl Hat Hpi B1) as (R1 & R2 & R3);
      cbn [box_block b_base b_size]; auto; try lia.
    { apply (Hboxj (box_block t' a v)). eapply (proj1 srcs_boxes); eauto. }
    split; [exact R1|]. split; [|exact R3]. split; [repeat split; auto|].
    + right. exists (box_block t' a v). split; [exact R1|]. cbn. lia.
    + apply (repr_shift t' (w_mem w) _ a a v); auto. intros x Hx. apply R2. lia.
  - destruct Hjs as (((P0 & Pm & PW & Pl) & Hr) & Ha).
    destruct (N.eq_dec (vsize t' v) 0) as [E0|E0].
    { split; [|left; exact E0]. split; [repeat split; auto; left; exact E0|].
      apply (repr_shift t' (w_mem w) _ a a v); auto. intros x Hx. lia. }
    destruct Pl as [E1|(bk & Hbk & L1 & L2)]; [lia|]. apply in_without in Hbk. destruct Hbk as [Hbk Hnb].
    rewrite in_app_iff in Hnb.
    destruct (range_after t chk w s i vs0 vs w' s' a (vsize t' v) bk Hwf Hbl Hat Hpi Hbk) as (R1 & R2 & R3); auto; try lia.
    split; [|exact R3]. split; [repeat split; auto|].
    + right. exists bk. split; [|auto]. apply in_without. split; [exact R1|]. tauto.
    + apply (repr_shift t' (w_mem w) _ a a v); auto. intros x Hx. apply R2. lia.
Qed.

(** The values of a list of initializers. *)
Definition ext_inv (t : vty) (chk : bool) (w : world) (s : sq) (is_ : list init) (vs0 vs : list vval) (w' : world) (s' : sq) : Prop :=
  seq_at w' t chk s' vs /\ wf_blocks (w_blocks w') /\ untouched w w' (seq_base s ++ all_bases t is_) /\
  (forall old, chk = true -> bits_within w t s vs0 old -> bits_within w' t s' vs old) /\
  (forall b, In b (w_blocks w) -> b_base b = s_ptr s' -> 0 < s_cap s' -> In (b_base b) (seq_base s ++ all_bases t is_)) /\
  (forall b, In b (w_blocks w') ->
     (0 < s_cap s' /\ b = seq_block t chk s') \/ (In b (w_blocks w) /\ ~ In (b_base b) (seq_base s))).

Lemma ext_nil t chk w s vs : wf_blocks (w_blocks w) -> seq_at w t chk s vs -> ext_inv t chk w s [] vs vs w s.
Proof.
  intros Hbl Hat. split; [exact Hat|]. split; [exact Hbl|]. split; [apply untouched_refl|]. split; [auto|]. split.
  - intros b Hb E Hc. apply in_or_app. left. unfold seq_base. destruct (N.eqb_spec (s_cap s) 0); [lia|left; auto].
  - intros b Hb. destruct (old_blocks t chk w s vs b Hbl Hat Hb); [left|right]; auto.
Qed.
Lemma ext_cons t chk w s i is_ vs0 vs1 vs2 w1 s1 w2 s2 :
  wf_ty t -> seq_at w t chk s vs0 ->
  push_inv t chk w s i vs0 vs1 w1 s1 -> ext_inv t chk w1 s1 is_ vs1 vs2 w2 s2 -> ext_inv t chk w s (i :: is_) vs0 vs2 w2 s2.
Proof.
  intros Hwf Hat0 (I1 & I2 & I3 & I4 & I5 & I6) (J1 & J2 & J3 & J4 & J5 & J6).
  assert (Hfresh : forall b, In b (w_blocks w) -> In (b_base b) (seq_base s1) -> In (b_base b) (seq_base s)).
  { intros b Hb Hin. unfold seq_base in Hin. destruct (N.eqb_spec (s_cap s1) 0); [contradiction|].
    destruct Hin as [E|[]]. apply I5; auto; lia. }
  split; [exact J1|]. split; [exact J2|]. split; [|split; [auto|split]].
  - unfold all_bases. cbn [map concat]. fold (all_bases t is_).
    eapply (untouched_trans_fresh w w1 w2 _ (seq_base s1 ++ all_bases t is_)).
    + eapply untouched_mono; [exact I3|]. intros x Hx. rewrite !in_app_iff in *. tauto.
    + exact J3.
    + intros b Hb Hin. rewrite !in_app_iff in *. destruct Hin as [Hin|Hin]; [left; auto|tauto].
  - intros b Hb E Hc. unfold all_bases. cbn [map concat]. fold (all_bases t is_). rewrite !in_app_iff.
    destruct (in_dec N.eq_dec (b_base b) (seq_base s ++ ibases t i)) as [Hin|Hn]; [rewrite in_app_iff in Hin; tauto|].
    destruct (I3 b Hb Hn) as [Hb1 _]. specialize (J5 b Hb1 E Hc). rewrite in_app_iff in J5.
    destruct J5 as [J5|J5]; [left; auto|tauto].
  - intros b Hb. destruct (J6 b Hb) as [H|[Hb1 Hn]]; [left; exact H|right].
    destruct (I6 b Hb1) as [[Hc ->]|[H1 H2]].
    + exfalso. apply Hn. unfold seq_base. destruct (N.eqb_spec (s_cap s1) 0); [lia|left; reflexivity].
    + split; [exact H1|]. rewrite in_app_iff in H2. tauto.
Qed.

Lemma seq_extend_ok t chk is_ : wf_ty t -> nonzst t -> forall w s vs,
  wf_blocks (w_blocks w) -> seq_at w t chk s vs -> inits_ready w t chk s is_ ->
  match seq_extend t chk is_ (w, s) with
  | Ok _ (w', s') => exists ws, map (ival t) is_ = map Some ws /\ ext_inv t chk w s is_ vs (vs ++ ws) w' s'
  | Panic (w', s') => exists k ws, (k < length is_)%nat /\ map (ival t) (firstn k is_) = map Some ws /\
      ext_inv t chk w s is_ vs (vs ++ ws) w' s'
  | UB _ => False
  end.
Proof.
  intros Hwf Hz. unfold seq_extend. induction is_ as [|i is_ IH]; intros w s vs Hbl Hat Hr; cbn [for_each].
  - exists []. split; [reflexivity|]. rewrite app_nil_r. apply ext_nil; auto.
  - pose proof (push_inv_ok t chk w s i vs Hwf Hz Hbl Hat (inits_head _ _ _ _ _ _ Hr)) as HP. unfold bind.
    destruct (seq_push t chk i (w, s)) as [u [w1 s1]|[w1 s1]|]; [| |contradiction].
    + destruct HP as (v & Ev & HP).
      pose proof (inits_tail t chk w s i is_ vs _ w1 s1 Hwf Hbl Hat HP Hr) as Hr1.
      pose proof HP as (P1 & P2 & _). specialize (IH w1 s1 (vs ++ [v]) P2 P1 Hr1).
      destruct (for_each (seq_push t chk) is_ (w1, s1)) as [u2 [w2 s2]|[w2 s2]|]; [| |contradiction].
      * destruct IH as (ws & E & HI). exists (v :: ws). cbn [map]. rewrite Ev, E. split; [reflexivity|].
        rewrite <- app_assoc in HI. eapply ext_cons; eauto.
      * destruct IH as (k & ws & Hk & E & HI). exists (S k), (v :: ws). cbn [firstn map length]. rewrite Ev, E.
        split; [lia|]. split; [reflexivity|]. rewrite <- app_assoc in HI. eapply ext_cons; eauto.
    + exists 0%nat, []. cbn [firstn map length]. split; [lia|]. split; [reflexivity|]. rewrite app_nil_r.
      pose proof (inits_tail t chk w s i is_ vs _ w1 s1 Hwf Hbl Hat HP Hr) as Hr1.
      pose proof HP as (P1 & P2 & _).
      pose proof (ext_cons t chk w s i [] vs vs vs w1 s1 w1 s1 Hwf Hat HP (ext_nil t chk w1 s1 vs P2 P1)) as (X1 & X2 & X3 & X4 & X5 & X6).
      split; [exact X1|]. split; [exact X2|]. unfold all_bases in *. cbn [map concat] in *. rewrite app_nil_r in *.
      split; [|split; [exact X4|split; [|exact X6]]].
      * eapply untouched_mono; [exact X3|]. intros x Hx. rewrite !in_app_iff in *. tauto.
      * intros b Hb E Hc. specialize (X5 b Hb E Hc). rewrite !in_app_iff in *. tauto.
Qed.

(** ** new, collect *)
Lemma seq_new_at w t chk : wf_ty t -> seq_at w t chk (seq_new t) [].
Proof.
  intros Hwf. split; [reflexivity|]. split; [reflexivity|]. split; [cbn; lia|]. left. split; [|reflexivity].
  split; [reflexivity|]. cbn [seq_new s_ptr]. pose proof (head_align_pow2 t Hwf) as Hp.
  pose proof (pow2_pos _ Hp). pose proof (pow2_le _ Hp) as Hle. change (2^29) with 536870912 in Hle. rewrite W_eq. lia.
Qed.
Lemma seq_new_bits w t old : bits_within w t (seq_new t) [] old.
Proof. intros H. cbn in H. lia. Qed.

Lemma seq_collect_ok t chk is_ w :
  wf_ty t -> nonzst t -> wf_blocks (w_blocks w) -> inits_ready w t chk (seq_new t) is_ ->
  match seq_collect t chk is_ w with
  | Ok s w' => exists ws, map (ival t) is_ = map Some ws /\ ext_inv t chk w (seq_new t) is_ [] ws w' s
  | Panic w' => exists k ws e, (k < length is_)%nat /\ map (ival t) (firstn k is_) = map Some ws /\
      untouched w w' (all_bases t is_) /\ wf_blocks (w_blocks w') /\
      (forall b, In b (w_blocks w') -> In b (w_blocks w)) /\
      exists s1 w1, ext_inv t chk w (seq_new t) is_ [] ws w1 s1 /\ e = map EDrop (all_drops t ws) ++ seq_free t chk s1 /\ w_log w' = w_log w1 ++ e
  | UB _ => False
  end.
Proof.
  intros Hwf Hz Hbl Hr. unfold seq_collect.
  pose proof (seq_extend_ok t chk is_ Hwf Hz w (seq_new t) [] Hbl (seq_new_at w t chk Hwf) Hr) as HE.
  destruct (seq_extend t chk is_ (w, seq_new t)) as [u [w1 s1]|[w1 s1]|]; [exact HE| |contradiction].
  destruct HE as (k & ws & Hk & E & HI). cbn [app] in HI. pose proof HI as (X1 & X2 & X3 & X4 & X5 & X6).
  destruct (seq_drop_ok w1 t chk s1 ws Hwf X2 X1) as (w2 & s2 & E2 & U). rewrite E2.
  exists k, ws, (map EDrop (all_drops t ws) ++ seq_free t chk s1). split; [exact Hk|]. split; [exact E|].
  change (seq_base (seq_new t)) with (@nil N) in *. cbn [app] in *.
  assert (Hb2 : forall b, In b (w_blocks w2) -> In b (w_blocks w)).
  { intros b Hb. rewrite (upd_blocks _ _ _ _ _ _ U) in Hb. apply in_without in Hb. destruct Hb as [Hb Hn].
    destruct (X6 b Hb) as [[Hc ->]|[H _]]; [|exact H]. exfalso. apply Hn. unfold seq_base.
    destruct (N.eqb_spec (s_cap s1) 0); [lia|left; reflexivity]. }
  split; [|split; [|split; [exact Hb2|]]].
  - eapply (untouched_trans_fresh w w1 w2 _ (seq_base s1)); [exact X3|eapply untouched_upd0; [exact U|apply incl_refl]|].
    intros b Hb Hin. unfold seq_base in Hin. destruct (N.eqb_spec (s_cap s1) 0); [contradiction|]. destruct Hin as [Eb|[]].
    specialize (X5 b Hb (eq_sym Eb) ltac:(lia)). exact X5.
  - eapply upd_wf; eauto.
  - exists s1, w1. split; [exact HI|]. split; [reflexivity|]. apply U.
Qed.
