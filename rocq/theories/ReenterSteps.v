(** ReenterSteps.v - operations with user code, one after the other and inside of each other (C61). *)
From Verif Require Export ReenterInv.

Lemma calls_app l l' : calls (l ++ l') = (calls l + calls l')%nat.
Proof. unfold calls, user_calls. now rewrite filter_app, app_length. Qed.
Lemma eff_trans ws w ws1 w1 ws2 w2 : eff ws w ws1 w1 -> eff ws1 w1 ws2 w2 -> eff ws w ws2 w2.
Proof.
  intros (A1 & A2 & A3 & A4 & es & A5 & A6 & A7) (B1 & B2 & B3 & B4 & es' & B5 & B6 & B7).
  assert (Hn : forall c, In c (w_blocks w) -> ~ In (b_base c) (bases ws) -> In c (w_blocks w1) /\ ~ In (b_base c) (bases ws1)).
  { intros c Hc Hn. split; [now apply A2|]. intros Hi. apply Hn. destruct (bases_in _ _ Hi) as (b & Hb & E). eapply A4; eauto. }
  split; [exact B1|]. split; [|split; [|split]].
  - intros b Hb Hnb. destruct (Hn b Hb Hnb) as [H1 H2]. destruct (A2 b Hb Hnb) as [_ M1]. destruct (B2 b H1 H2) as [H3 M2]. split; [exact H3|].
    intros x Hx. now rewrite M2, M1.
  - intros b Hb. destruct (B3 b Hb) as [H|[H1 H2]]; [auto|]. destruct (A3 b H1) as [H3|H3]; [|auto]. exfalso. apply H2, in_bases, H3.
  - intros b c Hb Hc E. destruct (in_dec N.eq_dec (b_base c) (bases ws)) as [H|H]; [exact H|]. destruct (Hn c Hc H) as [H1 H2]. exfalso. apply H2. eapply B4; eauto.
  - exists (es ++ es'). rewrite B5, A5, B6, A6, <- !app_assoc, calls_app, A7, B7. auto.
Qed.
Lemma eff_del ws w a size align : sub ws w -> is_block (w_blocks ws) a size align = true ->
  eff ws w (set_blocks ws (del_block (w_blocks ws) a)) (set_blocks w (del_block (w_blocks w) a)).
Proof.
  intros Hs Hi. destruct (eff_dealloc ws w a size align Hs Hi) as [_ (H1 & H2 & H3 & H4 & _)].
  split; [exact H1|]. split; [exact H2|]. split; [exact H3|]. split; [exact H4|]. exists []. cbn. rewrite !app_nil_r. auto.
Qed.
Lemma eff_new ws w a size align hp ms m al t als ts l ls es : sub ws w -> valid_answer (w_blocks w) a size align = true -> 0 < size ->
  valid_answer (w_blocks ws) a size align = true ->
  (forall x, ~ (a <= x < a + size) -> m x = w_mem w x /\ ms x = w_mem ws x) -> (forall x, a <= x < a + size -> m x = ms x) ->
  ls = w_log ws ++ es -> l = w_log w ++ es -> calls es = 0%nat ->
  eff ws w (mkW ms (mkB a size align hp :: w_blocks ws) als ts ls) (mkW m (mkB a size align hp :: w_blocks w) al t l).
Proof.
  intros Hs Hv Hp Hvs Hout Hin E1 E2 E3. pose proof Hs as (H1 & H2 & H3).
  pose proof (wf_blocks_cons _ a size align hp H1 Hvs Hp) as W1. pose proof (wf_blocks_cons _ a size align hp H2 Hv Hp) as W2.
  assert (Hap : forall b x, In b (w_blocks w) -> b_base b <= x < b_base b + b_size b -> ~ (a <= x < a + size)).
  { intros b x Hb Hx. destruct W2 as [_ W2]. inversion W2 as [|? ? Hall Hp']; subst. rewrite Forall_forall in Hall. specialize (Hall b Hb). unfold blocks_apart in Hall. cbn in Hall. lia. }
  split; [split; [exact W1|split; [exact W2|]]|split; [|split; [|split]]].
  - intros b [<-|Hb] _; cbn [w_mem w_blocks b_base b_size]; [split; [left; reflexivity|exact Hin]|].
    destruct (sub_in _ _ _ Hs Hb) as [Hb' Hm]. split; [right; exact Hb'|]. intros x Hx. destruct (Hout x (Hap b x Hb' Hx)) as [-> ->]. auto.
  - intros b Hb Hn. cbn [w_mem w_blocks]. split; [right; exact Hb|]. intros x Hx. apply Hout. eapply Hap; eauto.
  - intros b [<-|Hb]; cbn [w_blocks]; [left; left; reflexivity|].
    destruct (in_dec N.eq_dec (b_base b) (bases ws)) as [Hi|Hn]; [left; right; eapply sub_base; eauto|right; auto].
  - intros b c [<-|Hb] Hc E; cbn [w_blocks b_base] in *; [|rewrite E; now apply in_bases]. exfalso.
    pose proof (wf_same_base _ _ _ W2 (or_introl eq_refl) (or_intror Hc) (eq_sym E)) as Ec. subst c.
    destruct W2 as [_ W2]. inversion W2 as [|? ? Hall Hp']; subst. rewrite Forall_forall in Hall. specialize (Hall _ Hc). unfold blocks_apart in Hall. cbn in Hall. lia.
  - exists es. cbn. auto.
Qed.
Lemma eff_tick ws w : sub ws w -> eff ws w (tick ws) (tick w).
Proof. intros Hs. exact (eff_refl ws w Hs). Qed.

(** *** allocations, as long as the operation and the program see the same allocator *)
Lemma sim_both {S A} (Q1 Q2 : S -> S -> Prop) (m : M S A) : sim Q1 m -> sim Q2 m -> sim (fun s t => Q1 s t /\ Q2 s t) m.
Proof.
  intros H1 H2 s t [A1 A2]. specialize (H1 s t A1). specialize (H2 s t A2). destruct (m t) as [a t'|t'|u]; [| |exact H1];
    destruct H1 as (s' & E1 & H1), H2 as (s2 & E2 & H2); rewrite E1 in E2; injection E2 as <-; eauto.
Qed.
Lemma Rw_prims G : prims (Rw G).
Proof. constructor; intros; auto with sims. Qed.
Lemma alloc_eff G w ws size align : Rw G w ws -> sub ws w ->
  match alloc size align ws, alloc size align w with Ok _ ws', Ok _ w' => eff ws w ws' w' | Panic _, _ => False | _, _ => True end.
Proof.
  intros (H1 & H2 & H3 & H4 & H5 & H6 & H7) Hs. unfold alloc. destruct (N.eqb_spec size 0) as [|Hz]; [exact I|]. rewrite H4, H2.
  destruct (w_alloc w (w_tick w) size align) as [a|] eqn:Ea; [|unfold outside; rewrite Ea; now apply eff_tick].
  pose proof (divided_valid G _ _ (w_alloc w) (w_tick w) a size align H7 Ea) as Hv. destruct (outside _ _ _ _ _) as [a'|].
  - destruct Hv as [-> Hv]. rewrite Hv. destruct (valid_answer (w_blocks w) a size align) eqn:Ev; [|now apply eff_tick].
    apply eff_new with (es := [EAlloc a size align]); auto; try lia; try congruence.
    + intros x Hx. unfold fill. destruct (N.leb_spec a x), (N.ltb_spec x (a + size)); cbn [andb]; try (exfalso; lia); auto.
  - rewrite Hv. now apply eff_tick.
Qed.
Lemma bump_eff G w ws size align : Rw G w ws -> sub ws w ->
  match bump_alloc size align ws, bump_alloc size align w with Ok _ ws', Ok _ w' | Panic ws', Panic w' => eff ws w ws' w' | _, _ => True end.
Proof.
  intros (H1 & H2 & H3 & H4 & H5 & H6 & H7) Hs. unfold bump_alloc. rewrite H4, H2.
  destruct (w_alloc w (w_tick w) size align) as [a|] eqn:Ea; [|unfold outside; rewrite Ea; now apply eff_tick].
  pose proof (divided_valid G _ _ (w_alloc w) (w_tick w) a size align H7 Ea) as Hv. destruct (outside _ _ _ _ _) as [a'|].
  - destruct Hv as [-> Hv]. rewrite Hv. destruct (valid_answer (w_blocks w) a size align) eqn:Ev; [|now apply eff_tick].
    destruct (N.eqb_spec size 0) as [|Hz]; [now apply eff_tick|].
    apply eff_new with (es := []); auto; try lia; try congruence; rewrite ?app_nil_r; auto.
    + intros x Hx. unfold fill. destruct (N.leb_spec a x), (N.ltb_spec x (a + size)); cbn [andb]; try (exfalso; lia); auto.
  - rewrite Hv. now apply eff_tick.
Qed.
Lemma realloc_eff G w ws a size align ns : Rw G w ws -> sub ws w ->
  match realloc a size align ns ws, realloc a size align ns w with Ok _ ws', Ok _ w' => eff ws w ws' w' | Panic _, _ => False | _, _ => True end.
Proof.
  intros (H1 & H2 & H3 & H4 & H5 & H6 & H7) Hs. unfold realloc. destruct (N.eqb_spec ns 0) as [|Hz]; [exact I|].
  destruct (is_block (w_blocks ws) a size align) eqn:E; [|exact I]. destruct (divided_block G _ _ a size align H5 H6 H7 E) as [-> Hd]. cbn [negb].
  rewrite H4, H2. destruct (w_alloc w (w_tick w) ns align) as [a1|] eqn:Ea; [|unfold outside; rewrite Ea; now apply eff_tick].
  pose proof (divided_valid G _ _ (w_alloc w) (w_tick w) a1 ns align Hd Ea) as Hv. destruct (outside _ _ _ _ _) as [a'|].
  - destruct Hv as [-> Hv]. rewrite Hv. destruct (valid_answer (del_block (w_blocks w) a) a1 ns align) eqn:Ev; [|now apply eff_tick].
    pose proof (eff_del ws w a size align Hs E) as Hd1. eapply eff_trans; [exact Hd1|].
    unfold is_block in E. apply existsb_exists in E. destruct E as (d & Hdi & Ed).
    unfold block_eqb in Ed. repeat (apply andb_prop in Ed as [Ed ?]). apply N.eqb_eq in Ed.
    match goal with H : (b_size d =? size) = true |- _ => apply N.eqb_eq in H end.
    apply (eff_new (set_blocks ws (del_block (w_blocks ws) a)) (set_blocks w (del_block (w_blocks w) a))) with (es := [ERealloc a size align a1 ns]);
      cbn [set_blocks w_blocks w_mem w_log]; auto; try lia; try congruence; try apply Hd1.
    + intros x Hx. destruct (N.leb_spec a1 x), (N.ltb_spec x (a1 + ns)); cbn [andb]; try (exfalso; lia); auto.
    + intros x Hx. destruct (N.leb_spec a1 x), (N.ltb_spec x (a1 + ns)); cbn [andb]; try (exfalso; lia).
      destruct (N.ltb_spec x (a1 + N.min size ns)); [|reflexivity]. apply (sub_in _ _ _ Hs Hdi). lia.
  - rewrite Hv. now apply eff_tick.
Qed.
Lemma eff_aprims G (R : world -> world -> Prop) : (forall w ws, R w ws -> sub ws w) ->
  (forall w ws w' ws', R w ws -> eff ws w ws' w' -> R w' ws') -> prims (fun w ws => R w ws /\ Rw G w ws) /\ aprims (fun w ws => R w ws /\ Rw G w ws).
Proof.
  intros Hs He. pose proof (eff_prims R Hs He) as [P1 P2 P3 P4 P5 P6 P7]. pose proof (Rw_prims G) as [Q1 Q2 Q3 Q4 Q5 Q6 Q7]. split.
  { constructor; intros; apply sim_both; auto. }
  constructor.
  - intros size align w ws [HR HG]. pose proof (sim_alloc G size align w ws HG) as H. pose proof (alloc_eff G w ws size align HG (Hs _ _ HR)) as H2.
    destruct (alloc size align ws) as [a ws'|ws'|u]; [|contradiction|exact H]. destruct H as (w' & E & H). rewrite E in H2. eauto.
  - intros size align w ws [HR HG]. pose proof (sim_bump G size align w ws HG) as H. pose proof (bump_eff G w ws size align HG (Hs _ _ HR)) as H2.
    destruct (bump_alloc size align ws) as [a ws'|ws'|u]; [| |exact H]; destruct H as (w' & E & H); rewrite E in H2; eauto.
  - intros a size align ns w ws [HR HG]. pose proof (sim_realloc G a size align ns w ws HG) as H. pose proof (realloc_eff G w ws a size align ns HG (Hs _ _ HR)) as H2.
    destruct (realloc a size align ns ws) as [p ws'|ws'|u]; [|contradiction|exact H]. destruct H as (w' & E & H). rewrite E in H2. eauto.
Qed.
