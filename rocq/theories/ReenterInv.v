(** ReenterInv.v - while an operation runs, the blocks of its own values are not touched by user code, and it
    touches no others (C61). *)
From Verif Require Export Reenter.

(** ** no user code: the same operation *)
Lemma call_nothing e w sl : call_user e (w, sl, []) = Ok tt (add_log w [e], sl, []).
Proof. reflexivity. Qed.
Lemma uctx_none sl : uctx2 (fun _ => False) (fun _ => False) (fun ws z => z = (ws, sl, [])) (fun ws z => z = (ws, sl, [])).
Proof.
  assert (Hup : forall A (m : M world A), usame (fun _ => False) (fun _ => False) (fun ws z => z = (ws, sl, [])) m (up m)).
  { intros A m s t ->. right. cbn [up]. destruct (m s); eauto. }
  constructor; [constructor|auto|auto]; [auto|]. intros e _ s t ->. right. exists (add_log s [e], sl, []). split; reflexivity.
Qed.
Lemma exec_length o w sl : match exec o (w, sl) with
  | Ok _ (_, sl') => length sl' = if creates o then S (length sl) else length sl
  | Panic (_, sl') => length sl' = length sl | UB _ => True end.
Proof.
  destruct o; cbn [exec creates];
    repeat match goal with |- match (match ?x with _ => _ end) with _ => _ end => destruct x end;
    unfold call, call_seq; repeat match goal with |- match (match ?x with _ => _ end) with _ => _ end => destruct x as [? []|[]|] || destruct x end; cbn [fst snd];
    rewrite ?app_length; cbn [length]; change (@kill) with (@kills slot SDead); rewrite ?update_length, ?kills_length; try reflexivity; try exact I; try lia.
Qed.
Lemma exec_alone o w sl : exec_with o [] (w, sl) =
  match exec o (w, sl) with
  | Ok x (w', sl') => Ok x (w', sl')
  | Panic (w', sl') => Panic (w', with_room SDead o sl')
  | UB u => UB u
  end.
Proof.
  pose proof (exec_with_sim _ _ _ _ o w w sl [] (uctx_none (kill (with_room SDead o sl) (mentions o))) eq_refl) as [(u & _ & [])|H].
  pose proof (exec_length o w sl) as Hl.
  assert (Hk : forall r w' sl' h, ends (exec o (w, sl)) r w' sl' -> ~ In h (mentions o) -> (h < length sl)%nat -> nth_error sl' h = nth_error sl h) by (intros; eapply exec_keep; eassumption).
  destruct (exec o (w, sl)) as [x [w' sl']|[w' sl']|u].
  - destruct H as (w1 & slu & acts & -> & E). injection E as -> -> ->. change (kill (with_room SDead o sl) (mentions o)) with (kills SDead (with_room SDead o sl) (mentions o)). f_equal. f_equal. apply merge_self.
    + rewrite (kills_length SDead). unfold with_room. rewrite Hl. destruct (creates o); [rewrite app_length; cbn; lia|reflexivity].
    + unfold own_handles, with_room. intros h Hh. rewrite in_app_iff in Hh. rewrite kills_others by tauto.
      specialize (Hk (Done x) w' sl' h eq_refl). destruct (creates o).
      * rewrite nth_snoc. cbn [In] in Hh. destruct (Nat.eq_dec h (length sl)); [exfalso; intuition|]. destruct (Nat.lt_ge_cases h (length sl)); [symmetry; apply Hk; tauto|].
        rewrite (proj2 (nth_error_None sl h)) by lia. symmetry. apply nth_error_None. lia.
      * destruct (Nat.lt_ge_cases h (length sl)); [symmetry; apply Hk; tauto|].
        rewrite (proj2 (nth_error_None sl h)) by lia. symmetry. apply nth_error_None. lia.
  - destruct H as (w1 & slu & acts & -> & E). injection E as -> -> ->. change (kill (with_room SDead o sl) (mentions o)) with (kills SDead (with_room SDead o sl) (mentions o)). f_equal. f_equal.
    specialize (fun h => Hk Panicked w' sl' h eq_refl). apply nth_ext'. intros h. rewrite nth_merge, kills_length. unfold own_handles, with_room.
    destruct (creates o).
    + rewrite app_length. cbn [length]. rewrite nth_snoc, Hl. destruct (Nat.ltb_spec h (length sl + 1)) as [Hh|Hh].
      * destruct (Nat.eq_dec h (length sl)) as [->|Hne].
        { destruct (in_dec _ _ _) as [_|Hn]; [|exfalso; apply Hn, in_or_app; right; left; reflexivity]. f_equal. apply nth_overflow. lia. }
        destruct (in_dec _ _ _) as [_|Hn]; [symmetry; apply nth_error_nth'; lia|]. rewrite in_app_iff in Hn.
        rewrite Hk by (tauto || lia). rewrite (nth_error_nth' sl SDead) by lia. f_equal. apply nth_error_nth.
        rewrite kills_others by tauto. rewrite nth_snoc. destruct (Nat.eq_dec _ _); [lia|]. apply nth_error_nth'. lia.
      * destruct (Nat.eq_dec h (length sl)); [lia|]. symmetry. apply nth_error_None. lia.
    + destruct (Nat.ltb_spec h (length sl)) as [Hh|Hh]; [|symmetry; apply nth_error_None; lia]. rewrite app_nil_r.
      destruct (in_dec _ _ _) as [_|Hn]; [symmetry; apply nth_error_nth'; lia|].
      rewrite Hk by (tauto || lia). rewrite (nth_error_nth' sl SDead) by lia. f_equal. apply nth_error_nth.
      rewrite kills_others by tauto. apply nth_error_nth'. lia.
  - destruct H as [[]|H]. exact H.
Qed.

(** ** a world and the part of it that an operation uses *)
Definition bases (w : world) : list N := map b_base (w_blocks w).
Definition sub (ws w : world) : Prop :=
  wf_blocks (w_blocks ws) /\ wf_blocks (w_blocks w) /\ untouched ws w [].
Definition eff (ws w ws' w' : world) : Prop :=
  sub ws' w' /\ untouched w w' (bases ws) /\
  (forall b, In b (w_blocks w') -> In b (w_blocks ws') \/ (In b (w_blocks w) /\ ~ In (b_base b) (bases ws))) /\
  (forall b c, In b (w_blocks ws') -> In c (w_blocks w) -> b_base c = b_base b -> In (b_base c) (bases ws)) /\
  exists es, w_log ws' = w_log ws ++ es /\ w_log w' = w_log w ++ es /\ calls es = 0%nat.
Lemma in_bases w b : In b (w_blocks w) -> In (b_base b) (bases w).
Proof. apply in_map. Qed.
Lemma bases_in w x : In x (bases w) -> exists b, In b (w_blocks w) /\ b_base b = x.
Proof. unfold bases. rewrite in_map_iff. intros (b & E & H). eauto. Qed.
Lemma sub_in ws w b : sub ws w -> In b (w_blocks ws) -> In b (w_blocks w) /\ forall x, b_base b <= x < b_base b + b_size b -> w_mem w x = w_mem ws x.
Proof. intros (_ & _ & H) Hb. apply H; auto. Qed.
Lemma sub_base ws w b : sub ws w -> In b (w_blocks w) -> In (b_base b) (bases ws) -> In b (w_blocks ws).
Proof. intros H Hb Hi. destruct (bases_in _ _ Hi) as (c & Hc & E). destruct (sub_in _ _ _ H Hc) as [Hc' _]. now rewrite <- (wf_same_base _ _ _ (proj1 (proj2 H)) Hc' Hb E). Qed.
Lemma in_region ws a n x : inb ws a n = true -> a <= x < a + n -> exists b, In b (w_blocks ws) /\ b_base b <= x < b_base b + b_size b /\ b_base b <= a /\ a + n <= b_base b + b_size b.
Proof.
  unfold inb. intros H Hx. apply orb_true_iff in H as [H|H]; [apply N.eqb_eq in H; lia|]. apply existsb_exists in H. destruct H as (b & Hb & E).
  unfold in_block in E. apply andb_prop in E as [E1 E2]. apply N.leb_le in E1, E2. exists b. split; [exact Hb|]. split; [lia|]. split; assumption.
Qed.
Lemma sub_mem ws w a n x : sub ws w -> inb ws a n = true -> a <= x < a + n -> w_mem w x = w_mem ws x.
Proof. intros Hs H Hx. destruct (in_region _ _ _ _ H Hx) as (b & Hb & Hx2 & _). now apply (sub_in _ _ _ Hs Hb). Qed.
Lemma sub_inb ws w a n : sub ws w -> inb ws a n = true -> inb w a n = true.
Proof.
  intros Hs. unfold inb. destruct (n =? 0); [auto|]. cbn [orb]. rewrite !existsb_exists. intros (b & Hb & E). exists b. split; [|exact E].
  now apply (sub_in _ _ _ Hs Hb).
Qed.
Lemma sub_rd ws w a n : sub ws w -> inb ws a n = true -> rd (w_mem w) a n = rd (w_mem ws) a n.
Proof.
  intros Hs H. unfold rd. assert (G : forall k b, a <= b -> b + N.of_nat k <= a + n -> rdn (w_mem w) b k = rdn (w_mem ws) b k).
  { induction k as [|k IH]; intros b H1 H2; cbn [rdn]; [reflexivity|]. f_equal; [apply (sub_mem ws w a n b Hs H); lia|apply IH; lia]. }
  apply G; lia.
Qed.
Lemma eff_mem ws w ms m a n : sub ws w -> inb ws a n = true ->
  (forall x, ~ (a <= x < a + n) -> m x = w_mem w x /\ ms x = w_mem ws x) -> (forall x, a <= x < a + n -> m x = ms x) ->
  eff ws w (set_mem ws ms) (set_mem w m).
Proof.
  intros Hs Hi Hout Hin. pose proof Hs as (H1 & H2 & H3).
  assert (Hdis : forall b x, In b (w_blocks w) -> ~ In (b_base b) (bases ws) -> b_base b <= x < b_base b + b_size b -> ~ (a <= x < a + n)).
  { intros b x Hb Hn Hx Hx2. destruct (in_region _ _ _ _ Hi Hx2) as (c & Hc & Hx3 & _). apply Hn.
    replace b with c; [now apply in_bases|]. destruct (sub_in _ _ _ Hs Hc) as [Hc' _].
    destruct (FOP_in _ _ _ _ (proj2 H2) Hb Hc') as [->|[Hap|Hap]]; [reflexivity| |]; unfold blocks_apart in Hap; lia. }
  split; [split; [exact H1|split; [exact H2|]]|].
  - intros b Hb _. destruct (sub_in _ _ _ Hs Hb) as [Hb' Hm]. split; [exact Hb'|]. intros x Hx. cbn [set_mem w_mem].
    destruct (N.lt_ge_cases x a) as [Hlt|Hge]; [destruct (Hout x) as [-> ->]; [lia|auto]|].
    destruct (N.lt_ge_cases x (a + n)) as [Hlt2|Hge2]; [apply Hin; lia|destruct (Hout x) as [-> ->]; [lia|auto]].
  - split; [|split; [|split]].
    + intros b Hb Hn. split; [exact Hb|]. intros x Hx. cbn [set_mem w_mem]. apply Hout. eapply Hdis; eauto.
    + intros b Hb. cbn [set_mem w_blocks] in *. destruct (in_dec N.eq_dec (b_base b) (bases ws)) as [Hin'|Hn]; [left; eapply sub_base; eauto|right; auto].
    + intros b c Hb Hc E. cbn [set_mem w_blocks] in Hb. rewrite E. now apply in_bases.
    + exists []. rewrite !app_nil_r. auto.
Qed.
Lemma eff_refl ws w : sub ws w -> eff ws w ws w.
Proof.
  intros Hs. split; [exact Hs|]. split; [apply untouched_refl|]. split; [|split].
  - intros b Hb. destruct (in_dec N.eq_dec (b_base b) (bases ws)) as [Hin'|Hn]; [left; eapply sub_base; eauto|right; auto].
  - intros b c Hb Hc E. rewrite E. now apply in_bases.
  - exists []. rewrite !app_nil_r. auto.
Qed.
Lemma eff_emit ws w e : sub ws w -> user_call e = false -> eff ws w (add_log ws [e]) (add_log w [e]).
Proof.
  intros Hs He. destruct (eff_refl ws w Hs) as (H1 & H2 & H3 & H4 & _). split; [exact H1|]. split; [exact H2|]. split; [exact H3|]. split; [exact H4|].
  exists [e]. repeat split. unfold calls, user_calls. cbn [filter]. rewrite He. reflexivity.
Qed.
Lemma eff_dealloc ws w a size align : sub ws w -> is_block (w_blocks ws) a size align = true ->
  is_block (w_blocks w) a size align = true /\
  eff ws w (add_log (set_blocks ws (del_block (w_blocks ws) a)) [EDealloc a size align]) (add_log (set_blocks w (del_block (w_blocks w) a)) [EDealloc a size align]).
Proof.
  intros Hs Hi. pose proof Hs as (H1 & H2 & H3). unfold is_block in Hi. apply existsb_exists in Hi. destruct Hi as (d & Hd & Ed).
  assert (Ea : b_base d = a). { unfold block_eqb in Ed. repeat (apply andb_prop in Ed as [Ed ?]). now apply N.eqb_eq. }
  split; [apply existsb_exists; exists d; split; [apply (sub_in _ _ _ Hs Hd)|exact Ed]|].
  split; [split; [now apply wf_del|split; [now apply wf_del|]]|split; [|split; [|split]]].
  - intros b Hb _. cbn [add_log set_blocks w_blocks w_mem] in *. apply in_del in Hb as [Hb Hn]. destruct (sub_in _ _ _ Hs Hb). split; [apply in_del; auto|auto].
  - intros b Hb Hn. cbn [add_log set_blocks w_blocks w_mem] in *. split; [apply in_del; split; [exact Hb|]|reflexivity].
    intros E. apply Hn. rewrite E, <- Ea. now apply in_bases.
  - intros b Hb. cbn [add_log set_blocks w_blocks w_mem] in *. apply in_del in Hb as [Hb Hn].
    destruct (in_dec N.eq_dec (b_base b) (bases ws)) as [Hin'|Hn']; [left; apply in_del; split; [eapply sub_base; eauto|exact Hn]|right; auto].
  - intros b c Hb Hc E. cbn [add_log set_blocks w_blocks] in Hb. apply in_del in Hb as [Hb _]. rewrite E. now apply in_bases.
  - eexists. split; [reflexivity|]. split; reflexivity.
Qed.
(** A relation that is kept by such effects is kept by the elementary accesses. *)
Lemma eff_prims (R : world -> world -> Prop) : (forall w ws, R w ws -> sub ws w) ->
  (forall w ws w' ws', R w ws -> eff ws w ws' w' -> R w' ws') -> prims R.
Proof.
  intros Hs He.
  assert (Href : forall a n al, sim R (check_ref a n al)).
  { intros a n al w ws H. unfold check_ref. destruct (a =? 0); [auto|]. destruct (negb (a mod al =? 0)); [auto|].
    destruct (inb ws a n) eqn:E; [|left; reflexivity]. rewrite (sub_inb ws w a n (Hs _ _ H) E). cbn [negb]. eauto. }
  assert (Hrb : forall a n al w ws, R w ws -> match check_ref a n al ws with Ok _ ws' => ws' = ws /\ inb ws a n = true /\ check_ref a n al w = Ok tt w | Panic _ => False | UB u => u = UOob \/ u = UDealloc \/ check_ref a n al w = UB u end).
  { intros a n al w ws H. unfold check_ref. destruct (a =? 0); [auto|]. destruct (negb (a mod al =? 0)); [auto|].
    destruct (inb ws a n) eqn:E; [|left; reflexivity]. rewrite (sub_inb ws w a n (Hs _ _ H) E). cbn [negb]. auto. }
  constructor; auto.
  - intros a n al w ws H. unfold load, bind. specialize (Hrb a n al w ws H). destruct (check_ref a n al ws) as [? ws'|ws'|u]; [|contradiction|destruct Hrb as [?|[?| ->]]; auto].
    destruct Hrb as (-> & Hi & ->). rewrite (sub_rd ws w) by auto. eauto.
  - intros a al bs w ws H. unfold store, bind. specialize (Hrb a (len bs) al w ws H). destruct (check_ref _ _ _ ws) as [? ws'|ws'|u]; [|contradiction|destruct Hrb as [?|[?| ->]]; auto].
    destruct Hrb as (-> & Hi & ->). eexists. split; [reflexivity|]. eapply He; [exact H|]. apply (eff_mem ws w _ _ a (len bs)); auto.
    + intros x Hx. unfold wr. destruct (N.leb_spec a x), (N.ltb_spec x (a + len bs)); cbn [andb]; try (exfalso; lia); auto.
    + intros x Hx. unfold wr. destruct (N.leb_spec a x), (N.ltb_spec x (a + len bs)); cbn [andb]; try (exfalso; lia); auto.
  - intros src dst n al w ws H. unfold copy_nonoverlapping, bind. pose proof (Hrb src n al w ws H) as H1. destruct (check_ref src n al ws) as [? ws'|ws'|u]; [|contradiction|destruct H1 as [?|[?| ->]]; auto].
    destruct H1 as (-> & Hi & ->). specialize (Hrb dst n al w ws H). destruct (check_ref dst n al ws) as [? ws'|ws'|u]; [|contradiction|destruct Hrb as [?|[?| ->]]; auto].
    destruct Hrb as (-> & Hi2 & ->). destruct (_ || _); [|auto]. eexists. split; [reflexivity|]. eapply He; [exact H|]. apply (eff_mem ws w _ _ dst n); auto.
    + intros x Hx. unfold move. destruct (N.leb_spec dst x), (N.ltb_spec x (dst + n)); cbn [andb]; try (exfalso; lia); auto.
    + intros x Hx. unfold move. destruct (N.leb_spec dst x), (N.ltb_spec x (dst + n)); cbn [andb]; try (exfalso; lia); auto. apply (sub_mem ws w src n); auto. lia.
  - intros src dst n w ws H. unfold copy_bytes, bind. pose proof (Hrb src n 1 w ws H) as H1. destruct (check_ref src n 1 ws) as [? ws'|ws'|u]; [|contradiction|destruct H1 as [?|[?| ->]]; auto].
    destruct H1 as (-> & Hi & ->). specialize (Hrb dst n 1 w ws H). destruct (check_ref dst n 1 ws) as [? ws'|ws'|u]; [|contradiction|destruct Hrb as [?|[?| ->]]; auto].
    destruct Hrb as (-> & Hi2 & ->). eexists. split; [reflexivity|]. eapply He; [exact H|]. apply (eff_mem ws w _ _ dst n); auto.
    + intros x Hx. unfold move. destruct (N.leb_spec dst x), (N.ltb_spec x (dst + n)); cbn [andb]; try (exfalso; lia); auto.
    + intros x Hx. unfold move. destruct (N.leb_spec dst x), (N.ltb_spec x (dst + n)); cbn [andb]; try (exfalso; lia); auto. apply (sub_mem ws w src n); auto. lia.
  - intros a n w ws H. unfold fill_zero, bind. pose proof (Hrb a n 1 w ws H) as H1. destruct (check_ref a n 1 ws) as [? ws'|ws'|u]; [|contradiction|destruct H1 as [?|[?| ->]]; auto].
    destruct H1 as (-> & Hi & ->). eexists. split; [reflexivity|]. eapply He; [exact H|]. apply (eff_mem ws w _ _ a n); auto.
    + intros x Hx. unfold fill. destruct (N.leb_spec a x), (N.ltb_spec x (a + n)); cbn [andb]; try (exfalso; lia); auto.
    + intros x Hx. unfold fill. destruct (N.leb_spec a x), (N.ltb_spec x (a + n)); cbn [andb]; try (exfalso; lia); auto.
  - intros a size align w ws H. unfold dealloc. destruct (is_block (w_blocks ws) a size align) eqn:E; [|auto].
    destruct (eff_dealloc ws w a size align (Hs _ _ H) E) as [-> Hf]. eauto.
Qed.
