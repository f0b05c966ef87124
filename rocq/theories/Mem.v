(** Mem.v - lemmas on memory, monad steps, storage predicates. *)
From Verif Require Export Arith.

(** ** monad *)
Lemma bind_ok {S A B} (m : M S A) (k : A -> M S B) s a s' : m s = Ok a s' -> bind m k s = k a s'.
Proof. intros H. unfold bind. now rewrite H. Qed.
Lemma bind_panic {S A B} (m : M S A) (k : A -> M S B) s s' : m s = Panic s' -> bind m k s = Panic s'.
Proof. intros H. unfold bind. now rewrite H. Qed.
Ltac step H := rewrite (bind_ok _ _ _ _ _ H).

(** ** rd / wr *)
Lemma rdn_len m a n : length (rdn m a n) = n.
Proof. revert a; induction n; intros; cbn [rdn length]; auto. Qed.
Lemma len_rd m a n : len (rd m a n) = n.
Proof. unfold len, rd. rewrite rdn_len. lia. Qed.
Lemma rdn_ext m m' a n :
  (forall x, a <= x < a + N.of_nat n -> m x = m' x) -> rdn m a n = rdn m' a n.
Proof.
  revert a; induction n as [|n IH]; intros a H; cbn [rdn]; [reflexivity|].
  f_equal; [apply H; lia|]. apply IH. intros; apply H; lia.
Qed.
Lemma rd_ext m m' a n : (forall x, a <= x < a + n -> m x = m' x) -> rd m a n = rd m' a n.
Proof. intros. unfold rd. apply rdn_ext. intros; apply H; lia. Qed.
Lemma rdn_app m a n1 n2 : rdn m a (n1 + n2) = rdn m a n1 ++ rdn m (a + N.of_nat n1) n2.
Proof.
  revert a; induction n1 as [|n1 IH]; intros a; cbn [rdn Nat.add app].
  - f_equal. lia.
  - f_equal. rewrite IH. do 2 f_equal. lia.
Qed.
Lemma rd_app m a n1 n2 : rd m a (n1 + n2) = rd m a n1 ++ rd m (a + n1) n2.
Proof.
  unfold rd. replace (N.to_nat (n1 + n2)) with (N.to_nat n1 + N.to_nat n2)%nat by lia.
  rewrite rdn_app. do 2 f_equal. lia.
Qed.
Lemma rd_0 m a : rd m a 0 = []. Proof. reflexivity. Qed.
Lemma nth_rdn m a n i d : (i < n)%nat -> nth i (rdn m a n) d = m (a + N.of_nat i).
Proof.
  revert a i; induction n as [|n IH]; intros a i H; [lia|].
  destruct i as [|i]; cbn [rdn nth]; [f_equal; lia|]. rewrite IH by lia. f_equal; lia.
Qed.
Lemma nth_rd m a n i d : i < n -> nth (N.to_nat i) (rd m a n) d = m (a + i).
Proof. intros. unfold rd. rewrite nth_rdn by lia. f_equal; lia. Qed.
Lemma rd_point m m' a n x : rd m a n = rd m' a n -> a <= x < a + n -> m x = m' x.
Proof.
  intros H Hx. pose proof (nth_rd m a n (x - a) Un ltac:(lia)) as H1.
  pose proof (nth_rd m' a n (x - a) Un ltac:(lia)) as H2.
  replace (a + (x - a)) with x in * by lia. congruence.
Qed.
Lemma rd_eq m a n l : len l = n -> (forall i, i < n -> m (a + i) = nth (N.to_nat i) l Un) -> rd m a n = l.
Proof.
  intros Hl H. apply nth_ext with (d := Un) (d' := Un).
  - unfold len in Hl. pose proof (len_rd m a n) as E. unfold len in E. lia.
  - intros i Hi. pose proof (len_rd m a n) as E. unfold len in E.
    replace i with (N.to_nat (N.of_nat i)) by lia. rewrite nth_rd by lia. apply H. lia.
Qed.
Lemma rd_wr_same m a bs : rd (wr m a bs) a (len bs) = bs.
Proof.
  apply rd_eq; [reflexivity|]. intros i Hi. unfold wr.
  destruct (N.leb_spec a (a + i)); [|lia]. destruct (N.ltb_spec (a + i) (a + len bs)); [|lia].
  cbn [andb]. f_equal. lia.
Qed.
Lemma wr_out m a bs x : x < a \/ a + len bs <= x -> wr m a bs x = m x.
Proof.
  intros H. unfold wr. destruct (N.leb_spec a x), (N.ltb_spec x (a + len bs)); cbn [andb]; auto; lia.
Qed.
Lemma rd_wr_out m a bs b n : apart a (len bs) b n -> rd (wr m a bs) b n = rd m b n.
Proof.
  intros H. apply rd_ext. intros x Hx. apply wr_out. unfold apart in H. lia.
Qed.
Lemma rd_move m src dst n : rd (move m src dst n) dst n = rd m src n.
Proof.
  apply rd_eq; [apply len_rd|]. intros i Hi. rewrite nth_rd by auto. unfold move.
  destruct (N.leb_spec dst (dst + i)); [|lia]. destruct (N.ltb_spec (dst + i) (dst + n)); [|lia].
  cbn [andb]. f_equal. lia.
Qed.
Lemma move_out m src dst n x : x < dst \/ dst + n <= x -> move m src dst n x = m x.
Proof.
  intros H. unfold move. destruct (N.leb_spec dst x), (N.ltb_spec x (dst + n)); cbn [andb]; auto; lia.
Qed.
Lemma move_in m src dst n i : i < n -> move m src dst n (dst + i) = m (src + i).
Proof.
  intros H. unfold move. destruct (N.leb_spec dst (dst + i)), (N.ltb_spec (dst + i) (dst + n)); cbn [andb]; try lia.
  f_equal. lia.
Qed.

(** a sub-range of a known range *)
Lemma rd_sub m m' a n b k :
  rd m a n = rd m' a n -> a <= b -> b + k <= a + n -> rd m b k = rd m' b k.
Proof. intros H H1 H2. apply rd_ext. intros x Hx. eapply rd_point; eauto. lia. Qed.

Lemma app_split_len {A} (a b c d : list A) : len a = len c -> a ++ b = c ++ d -> a = c /\ b = d.
Proof.
  unfold len. revert c. induction a as [|x a IH]; intros [|y c] Hl H; cbn [length app] in *; try lia; auto.
  injection H as -> H. destruct (IH c) as [-> ->]; auto. lia.
Qed.
Lemma rd_chunks m p f xs :
  elems_ok f xs -> rd m p (len xs * f_size f) = concat xs ->
  map (fun i => rd m (p + i * f_size f) (f_size f)) (upto (len xs)) = xs.
Proof.
  intros H. revert p. induction H as [|x xs Hx H IH]; intros p E; [reflexivity|].
  rewrite len_cons in *. rewrite upto_succ. cbn [map concat] in *.
  replace ((1 + len xs) * f_size f) with (f_size f + len xs * f_size f) in E by lia.
  rewrite rd_app in E. apply app_split_len in E; [|now rewrite len_rd]. destruct E as [E1 E2].
  f_equal.
  - replace (p + 0 * f_size f) with p by lia. exact E1.
  - rewrite map_map. rewrite <- (IH (p + f_size f) E2) at 2. apply map_ext. intros i. f_equal. lia.
Qed.

(** ** live / inb / check_ref *)
Lemma inb_live w a n : inb w a n = true <-> live (w_blocks w) a n.
Proof.
  unfold inb, live. rewrite orb_true_iff, N.eqb_eq, existsb_exists.
  split; (intros [H|(b & Hb & H)]; [left; exact H|right; exists b; split; [exact Hb|]]).
  - unfold in_block in H. apply andb_true_iff in H. rewrite !N.leb_le in H. lia.
  - unfold in_block. apply andb_true_iff. rewrite !N.leb_le. lia.
Qed.
Lemma live_sub bl a n o k : live bl a n -> o + k <= n -> live bl (a + o) k.
Proof.
  intros [->|(b & Hb & H1 & H2)] H.
  - left. lia.
  - destruct (N.eq_dec k 0) as [->|Hk]; [left; auto|]. right. exists b. repeat split; auto; lia.
Qed.
Lemma live_pre bl a n k : live bl a n -> k <= n -> live bl a k.
Proof. intros H Hk. replace a with (a + 0) by lia. eapply live_sub; eauto. Qed.
Lemma live_incl bl bl' a n : live bl a n -> incl bl bl' -> live bl' a n.
Proof. intros [H|(b & Hb & H)] Hi; [left; auto|right; exists b; split; auto]. Qed.
Lemma check_ref_ok w a n al :
  a <> 0 -> a mod al = 0 -> live (w_blocks w) a n -> check_ref a n al w = Ok tt w.
Proof.
  intros H0 Hm Hl. unfold check_ref. destruct (N.eqb_spec a 0); [contradiction|].
  rewrite Hm. cbn [negb N.eqb]. rewrite (proj2 (inb_live w a n) Hl). reflexivity.
Qed.
Lemma load_ok w a n al :
  a <> 0 -> a mod al = 0 -> live (w_blocks w) a n -> load a n al w = Ok (rd (w_mem w) a n) w.
Proof. intros. unfold load. now step (check_ref_ok w a n al H H0 H1). Qed.
Lemma store_ok w a al bs :
  a <> 0 -> a mod al = 0 -> live (w_blocks w) a (len bs) ->
  store a al bs w = Ok tt (set_mem w (wr (w_mem w) a bs)).
Proof. intros. unfold store. now step (check_ref_ok w a (len bs) al H H0 H1). Qed.
Lemma copy_ok w src dst n al :
  src <> 0 -> dst <> 0 -> src mod al = 0 -> dst mod al = 0 ->
  live (w_blocks w) src n -> live (w_blocks w) dst n -> apart src n dst n ->
  copy_nonoverlapping src dst n al w = Ok tt (set_mem w (move (w_mem w) src dst n)).
Proof.
  intros. unfold copy_nonoverlapping.
  step (check_ref_ok w src n al H H1 H3). step (check_ref_ok w dst n al H0 H2 H4).
  unfold apart in H5.
  destruct (N.eqb_spec n 0), (N.leb_spec (src + n) dst), (N.leb_spec (dst + n) src); cbn [orb]; auto; lia.
Qed.

(** place_ok *)
Lemma place_sub bl t a n t' o k :
  place_ok bl t a n -> wf_ty t -> wf_ty t' -> sp_align t' <= sp_align t ->
  o mod sp_align t' = 0 -> o + k <= n -> place_ok bl t' (a + o) k.
Proof.
  intros (H0 & Hm & HW & Hl) Hwf Hwf' Hal Ho Hk. repeat split; try lia.
  - pose proof (sp_align_pos _ Hwf'). apply add_mod_0; auto; [lia|].
    eapply pow2_mod; [| |exact Hal|exact Hm]; apply sp_align_pow2; auto.
  - eapply live_sub; eauto.
Qed.

(** ** sizes *)
Lemma sp_end_ge :
  forall fs, wf_flds fs -> forall ss pos, pos <= sp_end fs ss pos.
Proof.
  induction fs as [|off f r IH|off f r IH|t r IH|f lf r IH]; cbn [wf_flds sp_end]; intros Hwf ss pos.
  - lia.
  - destruct ss; [lia|]. apply IH, Hwf.
  - destruct ss; [lia|]. apply IH, Hwf.
  - destruct ss as [|s ss]; [lia|]. destruct Hwf as [Ht Hr].
    specialize (IH Hr ss (up pos (sp_align t) + sp_size t s)).
    pose proof (up_ge pos (sp_align t) (sp_align_pos _ Ht)). lia.
  - destruct ss as [|s ss]; [lia|]. destruct s; try lia. destruct Hwf as (Hf & Hr).
    specialize (IH Hr ss (up pos (f_align f) + n * f_size f)).
    pose proof (up_ge pos (f_align f) (pow2_pos _ (proj1 Hf))). lia.
Qed.
Lemma lay_size_sp : forall t v, vok t v -> lay_size (sp_lay t (vshape v)) = vsize t v.
Proof.
  unfold vsize. induction t as [f|f k|t IH|kd hs ha fs]; intros v; destruct v; cbn [vok vshape]; try contradiction; try reflexivity.
  intros H. apply (IH v H).
Qed.
Lemma head_size_le : forall t v, wf_ty t -> vok t v -> head_size t <= vsize t v.
Proof.
  unfold vsize. induction t as [f|f k|t IH|kd hs ha fs]; intros v; destruct v; cbn [wf_ty vok vshape head_size sp_size]; try contradiction; intros Hwf H.
  - lia.
  - pose proof (up_ge (len_size k) (f_align f) (pow2_pos _ (proj1 Hwf))). lia.
  - apply (IH v Hwf H).
  - apply sp_end_ge. apply Hwf.
Qed.

(** ** world updates *)
Definition upd (w w' : world) (a n : N) (bases : list N) (evs : list event) : Prop :=
  same_outside (w_mem w) (w_mem w') a n /\
  w_blocks w' = without (w_blocks w) bases /\
  w_alloc w' = w_alloc w /\ w_tick w' = w_tick w /\ w_log w' = w_log w ++ evs.

Lemma without_nil bl : without bl [] = bl.
Proof. unfold without. induction bl as [|b bl IH]; cbn; [reflexivity|]. f_equal. exact IH. Qed.
Lemma without_app bl l1 l2 : without (without bl l1) l2 = without bl (l1 ++ l2).
Proof.
  unfold without. induction bl as [|b bl IH]; [reflexivity|].
  cbn [filter]. rewrite existsb_app. destruct (existsb (N.eqb (b_base b)) l1); cbn [negb orb filter]; [exact IH|].
  destruct (existsb (N.eqb (b_base b)) l2); cbn [negb]; rewrite IH; reflexivity.
Qed.
Lemma in_without b bl bases : In b (without bl bases) <-> In b bl /\ ~ In (b_base b) bases.
Proof.
  unfold without. rewrite filter_In, negb_true_iff. split; intros [H1 H2]; split; auto.
  - intros Hin. assert (existsb (N.eqb (b_base b)) bases = true); [|congruence].
    apply existsb_exists. exists (b_base b). split; auto. apply N.eqb_refl.
  - destruct (existsb (N.eqb (b_base b)) bases) eqn:E; auto.
    apply existsb_exists in E. destruct E as (x & Hx & Ex). apply N.eqb_eq in Ex. subst. contradiction.
Qed.
Lemma without_incl bl bases : incl (without bl bases) bl.
Proof. intros b H. apply in_without in H. tauto. Qed.
Lemma without_mono bl b1 b2 : incl b1 b2 -> incl (without bl b2) (without bl b1).
Proof. intros Hi b H. apply in_without in H. apply in_without. split; [tauto|]. intros Hx. apply (proj2 H), Hi, Hx. Qed.
Lemma without_del bl a : del_block bl a = without bl [a].
Proof.
  unfold del_block, without. apply filter_ext. intros b. cbn [existsb]. now rewrite orb_false_r.
Qed.
Lemma FOP_filter {A} (R : A -> A -> Prop) p l : ForallOrdPairs R l -> ForallOrdPairs R (filter p l).
Proof.
  induction 1 as [|x l Hx H IH]; cbn [filter]; [constructor|].
  destruct (p x); [|exact IH]. constructor; [|exact IH].
  apply Forall_forall. intros y Hy. apply filter_In in Hy. rewrite Forall_forall in Hx. apply Hx, Hy.
Qed.
Lemma wf_without bl bases : wf_blocks bl -> wf_blocks (without bl bases).
Proof.
  intros [H1 H2]. split.
  - intros b Hb. apply in_without in Hb. apply H1, Hb.
  - apply FOP_filter, H2.
Qed.

Lemma upd_refl w a n : upd w w a n [] [].
Proof. repeat split; try now rewrite without_nil. now rewrite app_nil_r. Qed.
Lemma upd_trans w w1 w2 a n b1 b2 e1 e2 :
  upd w w1 a n b1 e1 -> upd w1 w2 a n b2 e2 -> upd w w2 a n (b1 ++ b2) (e1 ++ e2).
Proof.
  intros (M1 & B1 & A1 & T1 & L1) (M2 & B2 & A2 & T2 & L2). repeat split.
  - intros x Hx. rewrite M2, M1; auto.
  - rewrite B2, B1. apply without_app.
  - congruence.
  - congruence.
  - rewrite L2, L1. now rewrite app_assoc.
Qed.
Lemma same_widen m m' a n b k : same_outside m m' a n -> b <= a -> a + n <= b + k -> same_outside m m' b k.
Proof. intros H H1 H2 x Hx. apply H. lia. Qed.
Lemma upd_widen w w' a n b k bs e : upd w w' a n bs e -> b <= a -> a + n <= b + k -> upd w w' b k bs e.
Proof. intros (M1 & R) H1 H2. split; auto. eapply same_widen; eauto. Qed.
Lemma upd_store w a bs : upd w (set_mem w (wr (w_mem w) a bs)) a (len bs) [] [].
Proof.
  repeat split; cbn.
  - intros x Hx. apply wr_out, Hx.
  - now rewrite without_nil.
  - now rewrite app_nil_r.
Qed.
Lemma upd_move w src dst n : upd w (set_mem w (move (w_mem w) src dst n)) dst n [] [].
Proof.
  repeat split; cbn.
  - intros x Hx. apply move_out, Hx.
  - now rewrite without_nil.
  - now rewrite app_nil_r.
Qed.
Lemma upd_log w es a n : upd w (add_log w es) a n [] es.
Proof. repeat split; cbn. now rewrite without_nil. Qed.
Lemma emit_all es w : for_each emit es w = Ok tt (add_log w es).
Proof.
  revert w; induction es as [|e es IH]; intros w; cbn [for_each].
  - unfold ret, add_log. rewrite app_nil_r. now destruct w.
  - unfold bind at 1, emit at 1. rewrite IH. unfold add_log; cbn. now rewrite <- app_assoc.
Qed.
