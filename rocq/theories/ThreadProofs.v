(** ThreadProofs.v - proofs about threads that own separate values (C66): the world as one thread sees it. *)
From Verif Require Export ThreadSpec Generic.
From Verif Require AliasProofs.

(** ** a thread's part of the world *)
Definition covers (b : block) (x : N) : Prop := b_base b <= x < b_base b + b_size b.
Definition avoid (F : list block) (size : N) (x : option N) : option N :=
  match x with Some a => if forallb (disjoint_from a size) F then Some a else None | None => None end.
(** [w]: the real world; [wv]: the world of one thread. [F]: the blocks of the others. *)
Definition Rt (F : list block) (m0 : N -> cell) (l0 lv0 : list event) (w wv : world) : Prop :=
  (forall b x, In b (w_blocks wv) -> covers b x -> w_mem wv x = w_mem w x) /\
  (exists es, w_log w = l0 ++ es /\ w_log wv = lv0 ++ es) /\
  (forall j size align, w_alloc wv (j + w_tick wv)%nat size align = avoid F size (w_alloc w (j + w_tick w)%nat size align)) /\
  wf_blocks (w_blocks w) /\ wf_blocks (w_blocks wv) /\
  (forall b, In b (w_blocks w) <-> In b (w_blocks wv) \/ In b F) /\
  (forall b, In b F -> ~ In b (w_blocks wv)) /\
  (forall b x, In b F -> covers b x -> w_mem w x = m0 x).

Lemma wf_apart bl b c : wf_blocks bl -> In b bl -> In c bl -> b <> c -> blocks_apart b c.
Proof.
  intros [_ H] Hb Hc Hne. assert (E : blocks_apart b c \/ blocks_apart c b).
  { clear -H Hb Hc Hne. induction H as [|x l Hx Hp IH]; [contradiction|]. rewrite Forall_forall in Hx.
    destruct Hb as [->|Hb]; destruct Hc as [->|Hc]; [congruence|left; auto|right; auto|auto]. }
  unfold blocks_apart in *. lia.
Qed.
Lemma Rt_inb F m0 l0 lv0 w wv a n : Rt F m0 l0 lv0 w wv -> inb wv a n = true -> inb w a n = true.
Proof.
  intros (_ & _ & _ & _ & _ & Hb & _). unfold inb. destruct (n =? 0); [auto|]. cbn [orb]. rewrite !existsb_exists.
  intros (b & Hi & E). exists b. split; [|exact E]. apply Hb. left. exact Hi.
Qed.
Lemma inb_block w a n x : inb w a n = true -> a <= x < a + n -> exists b, In b (w_blocks w) /\ covers b x.
Proof.
  unfold inb. intros H Hx. destruct (N.eqb_spec n 0); [lia|]. cbn [orb] in H. apply existsb_exists in H. destruct H as (b & Hb & E).
  exists b. split; [exact Hb|]. unfold in_block in E. apply andb_prop in E as [E1 E2]. apply N.leb_le in E1, E2. unfold covers. lia.
Qed.
Lemma Rt_other F m0 l0 lv0 w wv b c x : Rt F m0 l0 lv0 w wv -> In b F -> In c (w_blocks wv) -> covers b x -> covers c x -> False.
Proof.
  intros (_ & _ & _ & Hw & _ & Hi & Hn & _) Hb Hc Cb Cc.
  assert (Hne : b <> c) by (intros ->; exact (Hn c Hb Hc)).
  pose proof (wf_apart (w_blocks w) b c Hw (proj2 (Hi b) (or_intror Hb)) (proj2 (Hi c) (or_introl Hc)) Hne) as Ha.
  unfold blocks_apart, covers in *. lia.
Qed.
Lemma Rt_agree F m0 l0 lv0 w wv a n x : Rt F m0 l0 lv0 w wv -> inb wv a n = true -> a <= x < a + n -> w_mem wv x = w_mem w x.
Proof. intros HR Hi Hx. destruct (inb_block wv a n x Hi Hx) as (b & Hb & Hc). destruct HR as (H & _). eapply H; eauto. Qed.
Lemma Rt_write F m0 l0 lv0 w wv a n mw mv : Rt F m0 l0 lv0 w wv -> inb wv a n = true ->
  (forall x, a <= x < a + n -> mv x = mw x) -> (forall x, ~ (a <= x < a + n) -> mw x = w_mem w x /\ mv x = w_mem wv x) ->
  Rt F m0 l0 lv0 (set_mem w mw) (set_mem wv mv).
Proof.
  intros HR Hi Hin Hout. pose proof HR as (H1 & H2 & H3 & H4 & H5 & H6 & H7 & H8).
  split; [|split; [exact H2|]; split; [exact H3|]; split; [exact H4|]; split; [exact H5|]; split; [exact H6|]; split; [exact H7|]]; cbn [set_mem w_mem w_blocks].
  - intros b x Hb Hx. destruct (N.le_gt_cases a x); [destruct (N.lt_ge_cases x (a + n)); [apply Hin; lia|]|];
      (destruct (Hout x) as [-> ->]; [lia|]; eapply H1; eauto).
  - intros b x Hb Hx. destruct (Hout x) as [-> _]; [|eapply H8; eauto]. intros Hr. destruct (inb_block wv a n x Hi Hr) as (c & Hc & Cx).
    exact (Rt_other F m0 l0 lv0 w wv b c x HR Hb Hc Hx Cx).
Qed.
Lemma Rt_tick F m0 l0 lv0 w wv : Rt F m0 l0 lv0 w wv -> Rt F m0 l0 lv0 (tick w) (tick wv).
Proof.
  intros (H1 & H2 & H3 & H4). split; [exact H1|]. split; [exact H2|]. split; [|exact H4]. intros j s al. specialize (H3 (S j) s al).
  cbn [tick w_alloc w_tick]. replace (j + S (w_tick wv))%nat with (S j + w_tick wv)%nat by lia. replace (j + S (w_tick w))%nat with (S j + w_tick w)%nat by lia. exact H3.
Qed.
Lemma Rt_log F m0 l0 lv0 w wv es : Rt F m0 l0 lv0 w wv -> Rt F m0 l0 lv0 (add_log w es) (add_log wv es).
Proof.
  intros (H1 & (e & E1 & E2) & H3). split; [exact H1|]. split; [|exact H3]. exists (e ++ es). cbn [add_log w_log]. rewrite E1, E2, !app_assoc. auto.
Qed.
Definition never (w : world) : Prop := False.
(** Reducing to the interesting half. *)
Lemma gsim_never {A} R (m : M world A) : sim R m -> gsim R never m.
Proof.
  intros H. split; [intros sv []|]. intros s sv Hs. specialize (H s sv Hs). destruct (m sv); auto. tauto.
Qed.
Lemma valid_split F bl blv a size align : (forall b, In b bl <-> In b blv \/ In b F) -> forallb (disjoint_from a size) F = true ->
  valid_answer blv a size align = valid_answer bl a size align.
Proof.
  intros Hi Hf. unfold valid_answer. f_equal. apply eq_true_iff_eq. rewrite !forallb_forall in *. split; intros H b Hb.
  - apply Hi in Hb. destruct Hb; auto.
  - apply H, Hi. auto.
Qed.
Lemma valid_blocked F bl blv a size align : (forall b, In b bl <-> In b blv \/ In b F) -> forallb (disjoint_from a size) F = false ->
  valid_answer bl a size align = false.
Proof.
  intros Hi Hf. unfold valid_answer. apply andb_false_intro2. apply not_true_iff_false. intros H. apply not_true_iff_false in Hf. apply Hf.
  rewrite forallb_forall in *. intros b Hb. apply H, Hi. auto.
Qed.
(** A new block with the same contents in both. *)
Lemma Rt_new F m0 l0 lv0 w wv a size align hp mw mv : Rt F m0 l0 lv0 w wv -> 0 < size ->
  valid_answer (w_blocks w) a size align = true -> valid_answer (w_blocks wv) a size align = true -> forallb (disjoint_from a size) F = true ->
  (forall x, a <= x < a + size -> mv x = mw x) -> (forall x, ~ (a <= x < a + size) -> mw x = w_mem w x /\ mv x = w_mem wv x) ->
  Rt F m0 l0 lv0 (mkW mw (mkB a size align hp :: w_blocks w) (w_alloc w) (S (w_tick w)) (w_log w))
                 (mkW mv (mkB a size align hp :: w_blocks wv) (w_alloc wv) (S (w_tick wv)) (w_log wv)).
Proof.
  intros HR Hs Hv Hvv Hf Hin Hout. pose proof (Rt_tick _ _ _ _ _ _ HR) as (_ & _ & HT & _). pose proof HR as (H1 & H2 & H3 & H4 & H5 & H6 & H7 & H8).
  rewrite forallb_forall in Hf.
  assert (Hd : forall b x, In b F -> covers b x -> ~ (a <= x < a + size)).
  { intros b x Hb Hx Hr. specialize (Hf b Hb). unfold disjoint_from in Hf. apply orb_true_iff in Hf. rewrite !N.leb_le in Hf. unfold covers in Hx. lia. }
  split; [|split; [exact H2|]; split; [exact HT|]; split; [|split; [|split; [|split]]]]; cbn [w_mem w_blocks].
  - intros b x [<-|Hb] Hx; [apply Hin, Hx|]. destruct (N.le_gt_cases a x); [destruct (N.lt_ge_cases x (a + size)); [apply Hin; lia|]|];
      (destruct (Hout x) as [-> ->]; [lia|]; eapply H1; eauto).
  - apply wf_blocks_cons; auto.
  - apply wf_blocks_cons; auto.
  - intros b. cbn [In]. rewrite H6. tauto.
  - intros b Hb [<-|Hi]; [|exact (H7 b Hb Hi)]. apply (Hd _ a Hb); unfold covers; cbn; lia.
  - intros b x Hb Hx. destruct (Hout x (Hd b x Hb Hx)) as [-> _]. eapply H8; eauto.
Qed.
Lemma Rt_del F m0 l0 lv0 w wv a size align : Rt F m0 l0 lv0 w wv -> is_block (w_blocks wv) a size align = true ->
  is_block (w_blocks w) a size align = true /\ Rt F m0 l0 lv0 (set_blocks w (del_block (w_blocks w) a)) (set_blocks wv (del_block (w_blocks wv) a)).
Proof.
  intros HR E. pose proof HR as (H1 & H2 & H3 & H4 & H5 & H6 & H7 & H8). unfold is_block in *. apply existsb_exists in E. destruct E as (c & Hc & E).
  split; [apply existsb_exists; exists c; split; [apply H6; auto|exact E]|].
  unfold block_eqb in E. repeat (apply andb_prop in E as [E ?]). apply N.eqb_eq in E.
  assert (Hb : forall b, In b F -> b_base b <> a).
  { intros b Hb Eb. assert (b = c) by (eapply (wf_same_base (w_blocks w)); [exact H4|apply H6; auto|apply H6; auto|congruence]). subst b. exact (H7 c Hb Hc). }
  split; [|split; [exact H2|]; split; [exact H3|]; split; [|split; [|split; [|split]]]]; cbn [set_blocks w_mem w_blocks].
  - intros b x Hi. apply in_del in Hi. apply H1, Hi.
  - now apply wf_del.
  - now apply wf_del.
  - intros b. rewrite !in_del, H6. split; [tauto|]. intros [[Hi Hn]|Hi]; [tauto|]. split; [tauto|]. now apply Hb.
  - intros b Hi Hd. apply in_del in Hd. exact (H7 b Hi (proj1 Hd)).
  - exact H8.
Qed.
Lemma rd_same m m' a n : (forall x, a <= x < a + n -> m x = m' x) -> rd m a n = rd m' a n.
Proof.
  intros H. unfold rd. assert (forall k a', a <= a' -> a' + N.of_nat k <= a + n -> rdn m a' k = rdn m' a' k) as G.
  { induction k as [|k IH]; intros a' L1 L2; cbn [rdn]; [reflexivity|]. rewrite (H a') by lia. f_equal. apply IH; lia. }
  apply G; lia.
Qed.
Lemma Rt_prims F m0 l0 lv0 : gprims (Rt F m0 l0 lv0) never.
Proof.
  assert (Href : forall a n al, sim (Rt F m0 l0 lv0) (check_ref a n al)).
  { intros a n al w wv H. unfold check_ref. destruct (a =? 0); [auto|]. destruct (negb (a mod al =? 0)); [auto|].
    destruct (inb wv a n) eqn:E; [|left; reflexivity]. rewrite (Rt_inb _ _ _ _ w wv a n H E). cbn [negb]. eauto. }
  assert (Hck : forall a n al w wv (u : unit) wv', check_ref a n al wv = Ok u wv' -> Rt F m0 l0 lv0 w wv -> inb wv a n = true /\ wv' = wv /\ check_ref a n al w = Ok u w).
  { intros a n al w wv u wv' E HR. unfold check_ref in *. destruct (a =? 0); [discriminate|]. destruct (negb (a mod al =? 0)); [discriminate|].
    destruct (inb wv a n) eqn:Ei; [|discriminate]. injection E as <- <-. rewrite (Rt_inb _ _ _ _ w wv a n HR Ei). auto. }
  constructor; intros; apply gsim_never.
  - intros w wv H. eexists. split; [reflexivity|]. now apply Rt_log.
  - apply Href.
  - intros w wv H. unfold load, bind. pose proof (Href a n al w wv H) as X. destruct (check_ref a n al wv) as [u wv'|wv'|u] eqn:E.
    + destruct (Hck _ _ _ w wv u wv' E H) as (Hi & -> & ->). eexists. split; [|exact H]. f_equal. apply rd_same. intros x Hx. symmetry. eapply Rt_agree; eauto.
    + destruct X as (s' & -> & X). eauto.
    + destruct X as [X|[X|X]]; [auto|auto|rewrite X; auto].
  - intros w wv H. unfold store, bind. pose proof (Href a (len bs) al w wv H) as X. destruct (check_ref a (len bs) al wv) as [u wv'|wv'|u] eqn:E.
    + destruct (Hck _ _ _ w wv u wv' E H) as (Hi & -> & ->). eexists. split; [reflexivity|]. eapply Rt_write; [exact H|exact Hi| |];
        intros x Hx; unfold wr; destruct (N.leb_spec a x); destruct (N.ltb_spec x (a + len bs)); cbn [andb]; auto; lia.
    + destruct X as (s' & -> & X). eauto.
    + destruct X as [X|[X|X]]; [auto|auto|rewrite X; auto].
  - intros w wv H. unfold copy_nonoverlapping, bind. pose proof (Href src n al w wv H) as X. destruct (check_ref src n al wv) as [u wv'|wv'|u] eqn:E;
      [|destruct X as (s' & -> & X); eauto|destruct X as [X|[X|X]]; [auto|auto|rewrite X; auto]].
    destruct (Hck _ _ _ w wv u wv' E H) as (Hi & -> & ->). clear X. pose proof (Href dst n al w wv H) as X. destruct (check_ref dst n al wv) as [u' wv'|wv'|u'] eqn:E';
      [|destruct X as (s' & -> & X); eauto|destruct X as [X|[X|X]]; [auto|auto|rewrite X; auto]].
    destruct (Hck _ _ _ w wv u' wv' E' H) as (Hi' & -> & ->). destruct (_ || _ || _); [|auto]. eexists. split; [reflexivity|].
    eapply Rt_write; [exact H|exact Hi'| |]; intros x Hx; unfold move; destruct (N.leb_spec dst x); destruct (N.ltb_spec x (dst + n)); cbn [andb]; auto; try lia.
    apply (Rt_agree F m0 l0 lv0 w wv src n); auto; lia.
  - intros w wv H. unfold copy_bytes, bind. pose proof (Href src n 1 w wv H) as X. destruct (check_ref src n 1 wv) as [u wv'|wv'|u] eqn:E;
      [|destruct X as (s' & -> & X); eauto|destruct X as [X|[X|X]]; [auto|auto|rewrite X; auto]].
    destruct (Hck _ _ _ w wv u wv' E H) as (Hi & -> & ->). clear X. pose proof (Href dst n 1 w wv H) as X. destruct (check_ref dst n 1 wv) as [u' wv'|wv'|u'] eqn:E';
      [|destruct X as (s' & -> & X); eauto|destruct X as [X|[X|X]]; [auto|auto|rewrite X; auto]].
    destruct (Hck _ _ _ w wv u' wv' E' H) as (Hi' & -> & ->). eexists. split; [reflexivity|].
    eapply Rt_write; [exact H|exact Hi'| |]; intros x Hx; unfold move; destruct (N.leb_spec dst x); destruct (N.ltb_spec x (dst + n)); cbn [andb]; auto; try lia.
    apply (Rt_agree F m0 l0 lv0 w wv src n); auto; lia.
  - intros w wv H. unfold fill_zero, bind. pose proof (Href a n 1 w wv H) as X. destruct (check_ref a n 1 wv) as [u wv'|wv'|u] eqn:E;
      [|destruct X as (s' & -> & X); eauto|destruct X as [X|[X|X]]; [auto|auto|rewrite X; auto]].
    destruct (Hck _ _ _ w wv u wv' E H) as (Hi & -> & ->). eexists. split; [reflexivity|]. eapply Rt_write; [exact H|exact Hi| |];
      intros x Hx; unfold fill; destruct (N.leb_spec a x); destruct (N.ltb_spec x (a + n)); cbn [andb]; auto; lia.
  - intros w wv H. pose proof H as (H1 & H2 & H3 & H4 & H5 & H6 & H7 & H8). unfold alloc. destruct (N.eqb_spec size 0) as [|Hs]; [auto|].
    specialize (H3 0%nat size align). cbn [Nat.add] in H3. rewrite H3. destruct (w_alloc w (w_tick w) size align) as [a|]; cbn [avoid]; [|eexists; split; [reflexivity|now apply Rt_tick]].
    destruct (forallb (disjoint_from a size) F) eqn:Ef.
    + rewrite (valid_split F _ _ a size align H6 Ef). destruct (valid_answer (w_blocks w) a size align) eqn:Ev; [|eexists; split; [reflexivity|now apply Rt_tick]].
      eexists. split; [reflexivity|]. refine (Rt_log F m0 l0 lv0 (mkW _ _ _ _ (w_log w)) (mkW _ _ _ _ (w_log wv)) [_] _). apply Rt_new; auto; [lia|now rewrite (valid_split F _ _ a size align H6 Ef)| |];
        intros x Hx; unfold fill; destruct (N.leb_spec a x); destruct (N.ltb_spec x (a + size)); cbn [andb]; auto; lia.
    + rewrite (valid_blocked F _ _ a size align H6 Ef). eexists; split; [reflexivity|now apply Rt_tick].
  - intros w wv H. pose proof H as (H1 & H2 & H3 & H4 & H5 & H6 & H7 & H8). unfold bump_alloc.
    specialize (H3 0%nat size align). cbn [Nat.add] in H3. rewrite H3. destruct (w_alloc w (w_tick w) size align) as [a|]; cbn [avoid]; [|eexists; split; [reflexivity|now apply Rt_tick]].
    destruct (forallb (disjoint_from a size) F) eqn:Ef.
    + rewrite (valid_split F _ _ a size align H6 Ef). destruct (valid_answer (w_blocks w) a size align) eqn:Ev; [|eexists; split; [reflexivity|now apply Rt_tick]].
      destruct (N.eqb_spec size 0) as [|Hs]; [eexists; split; [reflexivity|now apply Rt_tick]|].
      eexists. split; [reflexivity|]. apply Rt_new; auto; [lia|now rewrite (valid_split F _ _ a size align H6 Ef)| |];
        intros x Hx; unfold fill; destruct (N.leb_spec a x); destruct (N.ltb_spec x (a + size)); cbn [andb]; auto; lia.
    + rewrite (valid_blocked F _ _ a size align H6 Ef). eexists; split; [reflexivity|now apply Rt_tick].
  - intros w wv H. unfold dealloc. destruct (is_block (w_blocks wv) a size align) eqn:E; [|right; left; reflexivity].
    destruct (Rt_del _ _ _ _ w wv a size align H E) as [-> HR]. eexists. split; [reflexivity|]. now apply Rt_log.
  - intros w wv H. unfold realloc. destruct (N.eqb_spec ns 0) as [|Hs]; [auto|].
    destruct (is_block (w_blocks wv) a size align) eqn:E; [|right; left; reflexivity].
    destruct (Rt_del _ _ _ _ w wv a size align H E) as [-> HR]. cbn [negb]. pose proof HR as (H1 & H2 & H3 & H4 & H5 & H6 & H7 & H8). cbn [set_blocks w_blocks w_mem w_alloc w_tick w_log] in *.
    specialize (H3 0%nat ns align). cbn [Nat.add] in H3. rewrite H3. destruct (w_alloc w (w_tick w) ns align) as [a'|]; cbn [avoid]; [|eexists; split; [reflexivity|now apply Rt_tick]].
    destruct (forallb (disjoint_from a' ns) F) eqn:Ef.
    + rewrite (valid_split F _ _ a' ns align H6 Ef). destruct (valid_answer (del_block (w_blocks w) a) a' ns align) eqn:Ev; [|eexists; split; [reflexivity|now apply Rt_tick]].
      eexists. split; [reflexivity|]. refine (Rt_log F m0 l0 lv0 (mkW _ _ _ _ (w_log w)) (mkW _ _ _ _ (w_log wv)) [_] _).
      apply (Rt_new F m0 l0 lv0 (set_blocks w (del_block (w_blocks w) a)) (set_blocks wv (del_block (w_blocks wv) a))); auto; [lia|cbn [set_blocks w_blocks]; now rewrite (valid_split F _ _ a' ns align H6 Ef)| |];
        intros x Hx; destruct (N.leb_spec a' x); destruct (N.ltb_spec x (a' + ns)); cbn [andb]; auto; try lia.
      destruct (N.ltb_spec x (a' + N.min size ns)); [|reflexivity].
      unfold is_block in E. apply existsb_exists in E. destruct E as (c & Hc & E). unfold block_eqb in E. repeat (apply andb_prop in E as [E ?]). apply N.eqb_eq in E.
      destruct H as (H & _). apply (H c); [exact Hc|]. unfold covers. repeat match goal with X : (_ =? _) = true |- _ => apply N.eqb_eq in X end. lia.
    + rewrite (valid_blocked F _ _ a' ns align H6 Ef). eexists; split; [reflexivity|now apply Rt_tick].
Qed.

(** ** answers of the allocator that were not asked for yet do not matter *)
Definition set_alloc (w : world) (al : nat -> N -> N -> option N) : world := mkW (w_mem w) (w_blocks w) al (w_tick w) (w_log w).
Definition Ra (al alv : nat -> N -> N -> option N) (w wv : world) : Prop := w = set_alloc wv al /\ w_alloc wv = alv.
Definition Ea (K : nat) (w : world) : Prop := (K < w_tick w)%nat.
Lemma Ra_prims al alv K : (forall k, (k < K)%nat -> al k = alv k) -> gprims (Ra al alv) (Ea K).
Proof.
  intros Hal.
  assert (Href : forall a n al0, gsim (Ra al alv) (Ea K) (check_ref a n al0)).
  { intros a n al0. split; intros; unfold check_ref.
    - destruct (a =? 0); [exact I|]. destruct (negb (a mod al0 =? 0)); [exact I|]. destruct (negb (inb _ _ _)); [exact I|assumption].
    - destruct H as [-> H]. destruct (a =? 0); [auto|]. destruct (negb (a mod al0 =? 0)); [auto|]. change (inb (set_alloc sv al) a n) with (inb sv a n).
      destruct (negb (inb sv a n)); [auto|]. right. eexists. split; [reflexivity|]. split; auto. }
  assert (Hmem : forall f : world -> world, (forall w, exists m, f w = set_mem w m) -> (forall w, w_mem (f (set_alloc w al)) = w_mem (f w)) ->
    gsim (Ra al alv) (Ea K) (fun w => Ok tt (f w))).
  { intros f H Hm. split.
    - intros sv He. destruct (H sv) as (m & ->). exact He.
    - intros s sv [-> Ha]. right. exists (set_alloc (f sv) al). split.
      + specialize (Hm sv). destruct (H sv) as (m & E). destruct (H (set_alloc sv al)) as (m' & E'). rewrite E, E' in *. cbn in Hm. subst m'. reflexivity.
      + split; [reflexivity|]. destruct (H sv) as (m & ->). exact Ha. }
  constructor; intros.
  - split; [intros sv H; exact H|]. intros s sv [-> H]. right. eexists. split; [reflexivity|]. split; auto.
  - apply Href.
  - apply gsim_bind; [apply Href|]. intros _. split; [intros sv H; exact H|]. intros s sv [-> H]. right. eexists. split; [reflexivity|]. split; auto.
  - apply gsim_bind; [apply Href|]. intros _. apply Hmem; [eauto|reflexivity].
  - apply gsim_bind; [apply Href|]. intros _. apply gsim_bind; [apply Href|]. intros _. destruct (_ || _ || _) eqn:Eo; cbv beta; [apply Hmem; [eauto|reflexivity]|apply gsim_undef].
  - apply gsim_bind; [apply Href|]. intros _. apply gsim_bind; [apply Href|]. intros _. apply Hmem; [eauto|reflexivity].
  - apply gsim_bind; [apply Href|]. intros _. apply Hmem; [eauto|reflexivity].
  - split.
    + intros sv H. unfold Ea in *. unfold alloc. destruct (size =? 0); [exact I|]. destruct (w_alloc sv _ _ _); [|cbn; lia]. destruct (valid_answer _ _ _ _); cbn; lia.
    + intros s sv [-> H]. unfold alloc. destruct (size =? 0); [auto|]. cbn [set_alloc w_alloc w_tick w_blocks]. subst alv.
      destruct (Nat.lt_ge_cases (w_tick sv) K) as [Hk|Hk].
      * rewrite (Hal _ Hk). destruct (w_alloc sv (w_tick sv) size align); [destruct (valid_answer _ _ _ _)|]; right; (eexists; split; [reflexivity|split; reflexivity]).
      * destruct (w_alloc sv _ _ _); [destruct (valid_answer _ _ _ _)|]; left; unfold Ea; cbn; lia.
  - split.
    + intros sv H. unfold Ea in *. unfold bump_alloc. destruct (w_alloc sv _ _ _); [|cbn; lia]. destruct (valid_answer _ _ _ _); [|cbn; lia]. destruct (size =? 0); cbn; lia.
    + intros s sv [-> H]. unfold bump_alloc. cbn [set_alloc w_alloc w_tick w_blocks]. subst alv.
      destruct (Nat.lt_ge_cases (w_tick sv) K) as [Hk|Hk].
      * rewrite (Hal _ Hk). destruct (w_alloc sv (w_tick sv) size align); [destruct (valid_answer _ _ _ _); [destruct (size =? 0)|]|]; right; (eexists; split; [reflexivity|split; reflexivity]).
      * destruct (w_alloc sv _ _ _); [destruct (valid_answer _ _ _ _); [destruct (size =? 0)|]|]; left; unfold Ea; cbn; lia.
  - split.
    + intros sv H. unfold dealloc. destruct (is_block _ _ _ _); [exact H|exact I].
    + intros s sv [-> H]. unfold dealloc. cbn [set_alloc w_blocks]. destruct (is_block _ _ _ _); [|auto]. right. eexists. split; [reflexivity|split; [reflexivity|exact H]].
  - split.
    + intros sv H. unfold Ea in *. unfold realloc. destruct (ns =? 0); [exact I|]. destruct (negb _); [exact I|]. destruct (w_alloc sv _ _ _); [|cbn; lia]. cbv zeta. destruct (valid_answer _ _ _ _); cbn; lia.
    + intros s sv [-> H]. unfold realloc. destruct (ns =? 0); [auto|]. cbn [set_alloc w_alloc w_tick w_blocks]. destruct (negb _); [auto|]. subst alv. cbv zeta.
      destruct (Nat.lt_ge_cases (w_tick sv) K) as [Hk|Hk].
      * rewrite (Hal _ Hk). destruct (w_alloc sv (w_tick sv) ns align); [destruct (valid_answer _ _ _ _)|]; right; (eexists; split; [reflexivity|split; reflexivity]).
      * destruct (w_alloc sv _ _ _); [destruct (valid_answer _ _ _ _)|]; left; unfold Ea; cbn; lia.
Qed.
Lemma set_alloc_same w : set_alloc w (w_alloc w) = w.
Proof. destruct w; reflexivity. Qed.
(** The clock of the allocator does not go back. *)
Lemma exec_tick o w sl r w' sl' : ends (exec o (w, sl)) r w' sl' -> (w_tick w <= w_tick w')%nat.
Proof.
  intros H. destruct (w_tick w) as [|k] eqn:Ek; [lia|].
  pose proof (exec_keeps _ _ (Ra_prims (w_alloc w) (w_alloc w) k (fun _ _ => eq_refl)) o w sl) as X. unfold Ea in X. rewrite Ek in X. specialize (X (Nat.lt_succ_diag_r k)).
  destruct r; cbn [ends] in H; rewrite H in X; cbn [fst] in X; lia.
Qed.
Lemma exec_alloc o w sl r w' sl' al : ends (exec o (w, sl)) r w' sl' -> (forall k, (k < w_tick w')%nat -> al k = w_alloc w k) ->
  ends (exec o (set_alloc w al, sl)) r (set_alloc w' al) sl' /\ w_alloc w' = w_alloc w.
Proof.
  intros H Hal. pose proof (gsim_exec _ _ (Ra_prims al (w_alloc w) (w_tick w') Hal) o (set_alloc w al) w sl (conj eq_refl eq_refl)) as X.
  destruct r; cbn [ends] in *; rewrite H in X; cbn [res_gsim] in X; (destruct X as [X|(x & -> & -> & E)]; [unfold Ea in X; lia|auto]).
Qed.
Lemma alone_alloc w sl σ n tr al : alone w sl σ n tr -> (forall k, (k < w_tick w)%nat -> al k = w_alloc w k) -> alone (set_alloc w al) sl σ n tr.
Proof.
  induction 1 as [w Hb|w sl σ n tr o r w' sl' σ' d es H IH Hal He Ha Hl]; intros Hk; [constructor; exact Hb|].
  assert (Ew : w_alloc w' = w_alloc w) by exact (proj2 (exec_alloc o w sl r w' sl' (w_alloc w) He (fun _ _ => eq_refl))).
  eapply A1_step with (w := set_alloc w al); [apply IH|exact Hal|apply exec_alloc; [exact He|]|exact Ha|exact Hl].
  - intros k Hlt. rewrite <- Ew. apply Hk. pose proof (exec_tick _ _ _ _ _ _ He). lia.
  - intros k Hlt. rewrite <- Ew. now apply Hk.
Qed.
Lemma alone_reach w sl σ n tr : alone w sl σ n tr -> reach w sl σ n.
Proof.
  induction 1 as [w Hb|w sl σ n tr o r w' sl' σ' d es H IH Hal He Ha Hl]; [now constructor|].
  destruct r as [x|]; cbn [ends] in He; [pose proof (R_done _ _ _ _ o x _ _ _ _ IH Hal He Ha) as R|pose proof (R_panicked _ _ _ _ o _ _ _ _ IH Hal He Ha) as R];
    destruct o; exact R.
Qed.

(** ** the invariant of a program with threads *)
Definition MInv (w : world) (ts : list worker) (tr : list (nat * action)) : Prop :=
  wf_blocks (w_blocks w) /\ (forall e, In e tr -> (fst e < length ts)%nat) /\
  exists wvs, length wvs = length ts /\
  (forall i wv k, nth_error wvs i = Some wv -> nth_error ts i = Some k ->
     alone wv (wk_slots k) (wk_vals k) (wk_lost k) (actions i tr) /\
     forall b x, In b (w_blocks wv) -> covers b x -> w_mem wv x = w_mem w x) /\
  (forall b, In b (w_blocks w) <-> exists i wv, nth_error wvs i = Some wv /\ In b (w_blocks wv)) /\
  (forall i j wv wv' b, nth_error wvs i = Some wv -> nth_error wvs j = Some wv' -> In b (w_blocks wv) -> In b (w_blocks wv') -> i = j).

Definition others (w wv : world) : list block := filter (fun b => negb (existsb (fun c => b_base c =? b_base b) (w_blocks wv))) (w_blocks w).
Lemma in_others w wv b : wf_blocks (w_blocks w) -> (forall c, In c (w_blocks wv) -> In c (w_blocks w)) ->
  In b (others w wv) <-> In b (w_blocks w) /\ ~ In b (w_blocks wv).
Proof.
  intros Hw Hi. unfold others. rewrite filter_In, negb_true_iff, <- not_true_iff_false, existsb_exists. split; intros [H1 H2]; (split; [exact H1|]); intros H; apply H2.
  - exists b. split; [exact H|apply N.eqb_refl].
  - destruct H as (c & Hc & E). apply N.eqb_eq in E. now rewrite <- (wf_same_base (w_blocks w) c b Hw (Hi c Hc) H1 E).
Qed.
(** The world of one thread. *)
Definition later (w wv : world) : nat -> N -> N -> option N := fun k size align =>
  if (k <? w_tick wv)%nat then w_alloc wv k size align else avoid (others w wv) size (w_alloc w (k - w_tick wv + w_tick w)%nat size align).
Lemma world_of w ts tr i k : MInv w ts tr -> nth_error ts i = Some k -> exists wv,
  alone wv (wk_slots k) (wk_vals k) (wk_lost k) (actions i tr) /\ Rt (others w wv) (w_mem w) (w_log w) (w_log wv) w wv /\
  exists wvs wv0, length wvs = length ts /\ nth_error wvs i = Some wv0 /\ w_blocks wv = w_blocks wv0 /\
  (forall j wv k, nth_error wvs j = Some wv -> nth_error ts j = Some k ->
     alone wv (wk_slots k) (wk_vals k) (wk_lost k) (actions j tr) /\
     forall b x, In b (w_blocks wv) -> covers b x -> w_mem wv x = w_mem w x) /\
  (forall b, In b (w_blocks w) <-> exists i wv, nth_error wvs i = Some wv /\ In b (w_blocks wv)) /\
  (forall i j wv wv' b, nth_error wvs i = Some wv -> nth_error wvs j = Some wv' -> In b (w_blocks wv) -> In b (w_blocks wv') -> i = j).
Proof.
  intros (Hw & Ht & wvs & Hl & Hall & Hin & Hdis) Hk. assert (Hi : (i < length wvs)%nat) by (rewrite Hl; apply nth_error_Some; congruence).
  destruct (nth_error wvs i) as [wv|] eqn:Ev; [|apply nth_error_None in Ev; lia]. clear Hi. destruct (Hall i wv k Ev Hk) as [Ha Hm].
  exists (set_alloc wv (later w wv)). split; [apply alone_alloc; [exact Ha|]|split].
  - intros j Hj. unfold later. rewrite (proj2 (Nat.ltb_lt _ _) Hj). reflexivity.
  - change (others w (set_alloc wv (later w wv))) with (others w wv). assert (Hsub : forall c, In c (w_blocks wv) -> In c (w_blocks w)) by (intros c Hc; apply Hin; eauto).
    split; [exact Hm|]. split; [exists []; now rewrite !app_nil_r|]. split; [|split; [exact Hw|split; [exact (proj1 (reach_inv _ _ _ _ (alone_reach _ _ _ _ _ Ha)))|]]].
    + intros j s al. cbn [set_alloc w_alloc w_tick]. unfold later. rewrite (proj2 (Nat.ltb_ge _ _)) by lia. now replace (j + w_tick wv - w_tick wv)%nat with j by lia.
    + cbn [set_alloc w_blocks]. split; [|split; [intros b Hb; now apply (in_others w wv b Hw Hsub) in Hb|auto]]. intros b. rewrite (in_others w wv b Hw Hsub). split.
      * intros Hb. destruct (proj1 (Hin b) Hb) as (j & wv' & Hj & Hb'). destruct (Nat.eq_dec j i) as [->|Hne]; [left; congruence|].
        right. split; [exact Hb|]. intros H. apply Hne. eapply Hdis; eauto.
      * intros [H|H]; [auto|tauto].
  - exists wvs, wv. repeat split; auto; try (apply Hin); eapply Hall; eauto.
Qed.
Lemma actions_other i j e tr : i <> j -> actions j (tr ++ [(i, e)]) = actions j tr.
Proof. intros H. unfold actions. rewrite filter_app, map_app. cbn [filter fst]. rewrite (proj2 (Nat.eqb_neq i j) H). apply app_nil_r. Qed.
Lemma actions_same i e tr : actions i (tr ++ [(i, e)]) = actions i tr ++ [e].
Proof. unfold actions. rewrite filter_app, map_app. cbn [filter fst]. now rewrite Nat.eqb_refl. Qed.
Lemma replace_nth_len {A} (l : list A) i x : length (replace_nth l i x) = length l.
Proof. rewrite <- update_replace. apply update_length. Qed.
(** What one thread does, in its world. *)
Lemma virtual_step F m0 l0 lv0 w wv sl σ n o : Rt F m0 l0 lv0 w wv -> reach wv sl σ n -> allowed σ o ->
  match exec o (w, sl) with
  | Ok r (w', sl') => exists wv', exec o (wv, sl) = Ok r (wv', sl') /\ Rt F m0 l0 lv0 w' wv'
  | Panic (w', sl') => exists wv', exec o (wv, sl) = Panic (wv', sl') /\ Rt F m0 l0 lv0 w' wv'
  | UB u => u = UNull /\ refused_box wv σ o
  end.
Proof.
  intros HR Hre Hal. pose proof (gsim_exec _ _ (Rt_prims F m0 l0 lv0) o w wv sl HR) as X. pose proof (exec_ok wv sl σ n o (reach_inv _ _ _ _ Hre) Hal) as Y.
  destruct (exec o (wv, sl)) as [r [wv' sl']|[wv' sl']|u]; cbn [res_gsim step_res] in *.
  - destruct X as [[]|(w' & -> & X)]. eauto.
  - destruct X as [[]|(w' & -> & X)]. eauto.
  - destruct Y as [-> Y]. destruct X as [X|[X|[X|(x & [])]]]; [discriminate|discriminate|rewrite X; auto].
Qed.
Lemma threads_inv w ts tr : threads w ts tr -> MInv w ts tr.
Proof.
  induction 1 as [w Hb|w ts tr H IH|w ts tr i sl σ n o r w' sl' σ' d es H IH Hi Hal He Ha Hl].
  - split; [rewrite Hb; split; [intros b []|constructor]|]. split; [intros e []|]. exists []. split; [reflexivity|]. split; [intros [|i] wv k Hw; discriminate|].
    split; [|intros [|i] j wv wv' b Hw; discriminate]. intros b. rewrite Hb. split; [intros []|]. intros ([|i] & wv & Hw & _); discriminate.
  - destruct IH as (Hw & Ht & wvs & Hlen & Hall & Hin & Hdis). split; [exact Hw|]. split; [intros e He; rewrite app_length; cbn; specialize (Ht e He); lia|].
    exists (wvs ++ [set_blocks w []]). split; [rewrite !app_length, Hlen; reflexivity|].
    assert (Hnew : forall i wv, nth_error (wvs ++ [set_blocks w []]) i = Some wv -> nth_error wvs i = Some wv \/ (i = length wvs /\ wv = set_blocks w [])).
    { intros i wv E. destruct (Nat.lt_ge_cases i (length wvs)) as [L|L]; [left; now rewrite nth_error_app1 in E by exact L|right].
      rewrite nth_error_app2 in E by exact L. destruct (i - length wvs)%nat as [|[|m]] eqn:Ed; cbn in E; [injection E as <-; split; [lia|reflexivity]|discriminate|discriminate]. }
    assert (Hold : forall i wv, nth_error wvs i = Some wv -> nth_error (wvs ++ [set_blocks w []]) i = Some wv).
    { intros i wv E. rewrite nth_error_app1; [exact E|]. apply nth_error_Some. congruence. }
    split; [|split].
    + intros i wv k Hw' Hk. destruct (Hnew i wv Hw') as [E|[-> ->]].
      * apply (Hall i wv k E). rewrite nth_error_app1 in Hk; [exact Hk|]. rewrite <- Hlen. apply nth_error_Some. congruence.
      * rewrite nth_error_app2, Hlen, Nat.sub_diag in Hk by lia. injection Hk as <-. cbn [wk_slots wk_vals wk_lost]. split; [|intros b x []].
        replace (actions (length wvs) tr) with (@nil action); [constructor; reflexivity|]. unfold actions. rewrite Hlen. clear -Ht.
        induction tr as [|e tr IH]; [reflexivity|]. cbn [filter]. pose proof (Ht e (or_introl eq_refl)). rewrite (proj2 (Nat.eqb_neq (fst e) (length ts))) by lia. apply IH. intros e' He'. apply Ht. now right.
    + intros b. rewrite Hin. split; intros (i & wv & E & Hb); [eauto|]. destruct (Hnew i wv E) as [E'|[-> ->]]; [eauto|destruct Hb].
    + intros i j wv wv' b Ei Ej Hb Hb'. destruct (Hnew i wv Ei) as [Ei'|[-> ->]]; [|destruct Hb]. destruct (Hnew j wv' Ej) as [Ej'|[-> ->]]; [|destruct Hb']. eapply Hdis; eauto.
  - pose proof IH as (Hw & Ht & _). destruct (world_of w ts tr i _ IH Hi) as (wv & Hone & HR & wvs & wv0 & Hlen & Hwi & Eb & Hall & Hin & Hdis). cbn [wk_slots wk_vals wk_lost] in Hone.
    pose proof (virtual_step _ _ _ _ w wv sl σ n o HR (alone_reach _ _ _ _ _ Hone) Hal) as X.
    assert (X' : exists wv', ends (exec o (wv, sl)) r wv' sl' /\ Rt (others w wv) (w_mem w) (w_log w) (w_log wv) w' wv').
    { destruct r; cbn [ends] in *; rewrite He in X; exact X. }
    clear X. destruct X' as (wv' & He' & HR'). pose proof HR' as (R1 & (es' & L1 & L2) & R3 & R4 & R5 & R6 & R7 & R8).
    rewrite Hl in L1. apply app_inv_head in L1. subst es'.
    assert (Hsub : forall c, In c (w_blocks wv) -> In c (w_blocks w)) by (intros c Hc; rewrite Eb in Hc; apply Hin; eauto).
    assert (Hoth : forall b, In b (others w wv) <-> exists j wj, j <> i /\ nth_error wvs j = Some wj /\ In b (w_blocks wj)).
    { intros b. rewrite (in_others w wv b Hw Hsub), Eb. split.
      - intros [Hb Hn]. destruct (proj1 (Hin b) Hb) as (j & wj & Hj & Hb'). exists j, wj. split; [intros ->; congruence|auto].
      - intros (j & wj & Hne & Hj & Hb'). split; [apply Hin; eauto|]. intros Hc. apply Hne. eapply Hdis; eauto. }
    split; [exact R4|]. split.
    { intros e Hin'. rewrite replace_nth_len. apply in_app_or in Hin'. destruct Hin' as [H'|[<-|[]]]; [auto|]. cbn [fst]. apply nth_error_Some. congruence. }
    assert (Hup : forall j wj, nth_error (replace_nth wvs i wv') j = Some wj -> (j = i /\ wj = wv') \/ (j <> i /\ nth_error wvs j = Some wj)).
    { intros j wj E. rewrite <- update_replace in E. now apply AliasProofs.nth_update_inv in E. }
    exists (replace_nth wvs i wv'). split; [now rewrite !replace_nth_len|]. split; [|split].
    + intros j wj k Hj Hk. rewrite nth_replace_nth in Hk. destruct (Hup j wj Hj) as [[-> ->]|[Hne Hj']].
      * destruct (Nat.eq_dec i i); [|congruence]. rewrite Hi in Hk. injection Hk as <-. cbn [wk_slots wk_vals wk_lost]. split; [|exact R1].
        rewrite actions_same. eapply A1_step; eauto.
      * destruct (Nat.eq_dec i j); [congruence|]. destruct (Hall j wj k Hj' Hk) as [A B]. split; [rewrite actions_other by auto; exact A|].
        intros b x Hb Hx. rewrite (B b x Hb Hx). symmetry. apply (R8 b x); [|exact Hx]. apply Hoth. eauto.
    + intros b. rewrite R6, Hoth. split.
      * intros [Hb|(j & wj & Hne & Hj & Hb)]; [exists i, wv'|exists j, wj]; (split; [|exact Hb]); rewrite nth_replace_nth.
        { destruct (Nat.eq_dec i i); [|congruence]. now rewrite Hwi. }
        { destruct (Nat.eq_dec i j); [congruence|exact Hj]. }
      * intros (j & wj & Hj & Hb). destruct (Hup j wj Hj) as [[-> ->]|[Hne Hj']]; [auto|]. right. eauto.
    + intros j1 j2 w1 w2 b E1 E2 H1 H2. destruct (Hup _ _ E1) as [[-> ->]|[Hn1 E1']]; destruct (Hup _ _ E2) as [[-> ->]|[Hn2 E2']]; [reflexivity| | |eapply Hdis; eauto].
      * exfalso. apply (R7 b); [|exact H1]. apply Hoth. eauto.
      * exfalso. apply (R7 b); [|exact H2]. apply Hoth. eauto.
Qed.
