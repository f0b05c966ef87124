(** Hidden.v - a proof device for C59: an operation does not depend on the values of a program that it
    does not mention. *)
From Verif Require Export Sim PlaceAddr.

Definition agree {A} (hs : list nat) (l l' : list A) : Prop := forall h, In h hs -> nth_error l h = nth_error l' h.
Lemma agree_app {A} hs hs' (l l' : list A) : agree (hs ++ hs') l l' <-> agree hs l l' /\ agree hs' l l'.
Proof. unfold agree. split; [intros H; split; intros h Hh; apply H, in_or_app; auto|]. intros [H1 H2] h Hh. apply in_app_or in Hh. destruct Hh; auto. Qed.
Lemma agree_one {A} h (l l' : list A) : agree [h] l l' <-> nth_error l h = nth_error l' h.
Proof. unfold agree. split; [intros H; apply H; left; reflexivity|]. intros H x [<-|[]]. exact H. Qed.
Lemma agree_cons {A} h hs (l l' : list A) : agree (h :: hs) l l' <-> nth_error l h = nth_error l' h /\ agree hs l l'.
Proof. change (h :: hs) with ([h] ++ hs). rewrite agree_app, agree_one. reflexivity. Qed.
Lemma agree_sym {A} hs (l l' : list A) : agree hs l l' -> agree hs l' l.
Proof. intros H h Hh. symmetry. auto. Qed.

Lemma at_place_agree σ σ' pl : nth_error σ (place_handle pl) = nth_error σ' (place_handle pl) -> at_place σ' pl = at_place σ pl.
Proof. destruct pl; cbn [place_handle at_place]; intros ->; reflexivity. Qed.
Lemma where_agree σ σ' pl : nth_error σ (place_handle pl) = nth_error σ' (place_handle pl) -> whereabouts σ' pl = whereabouts σ pl.
Proof. destruct pl; cbn [place_handle whereabouts]; try reflexivity. intros ->. reflexivity. Qed.
Lemma slice_agree σ σ' f pl j lo k cl ai : nth_error σ (place_handle pl) = nth_error σ' (place_handle pl) ->
  slice_den σ f pl j lo k cl ai -> slice_den σ' f pl j lo k cl ai.
Proof.
  intros E H. destruct H as [xs H1 H2 H3|xs H1 H2]; [apply SD_copy|apply SD_clone]; auto; unfold elements_at in *; now rewrite (at_place_agree σ σ' pl E).
Qed.
Lemma den_agree σ σ' :
  (forall t p i, den σ t p i -> agree (moves p ++ borrows p) σ σ' -> den σ' t p i) /\
  (forall fs ps is_, dens σ fs ps is_ -> agree (concat (map moves ps) ++ concat (map borrows ps)) σ σ' -> dens σ' fs ps is_).
Proof.
  apply den_mut; intros; cbn [moves borrows map concat app] in *;
    rewrite ?agree_app, ?agree_one, ?app_nil_r in *;
    try (econstructor; eauto; fail);
    try (econstructor; eauto using slice_agree; rewrite ?agree_app; intuition eauto using slice_agree; fail).
  - constructor. congruence.
  - econstructor; eauto. rewrite (at_place_agree σ σ'); auto.
  - econstructor; eauto. rewrite (at_place_agree σ σ'); auto.
  - match goal with H : agree _ _ _ /\ agree _ _ _ |- _ => destruct H as [Ha Hb] end. rewrite agree_cons in Hb.
    eapply Ds_arr_at; [eapply slice_agree; [exact (proj1 Hb)|exact H]|]. apply H1. split; [exact Ha|exact (proj2 Hb)].
Qed.
Lemma agree_In {A} hs (l l' : list A) h : agree hs l l' -> In h hs -> nth_error l h = nth_error l' h.
Proof. auto. Qed.
Lemma away_agree σ σ' pl pl' : nth_error σ (place_handle pl) = nth_error σ' (place_handle pl) ->
  nth_error σ (place_handle pl') = nth_error σ' (place_handle pl') -> away σ pl pl' -> away σ' pl pl'.
Proof. intros H H'. unfold away. now rewrite (where_agree σ σ' pl H), (where_agree σ σ' pl' H'). Qed.
Lemma allowed_agree σ σ' o : allowed σ o -> agree (mentions o) σ σ' -> allowed σ' o.
Proof.
  intros H. destruct H; cbn [mentions]; intros Ha; rewrite ?agree_cons in Ha;
    repeat match goal with H : _ /\ _ |- _ => destruct H end;
    repeat match goal with H : nth_error σ ?h = Some _, E : nth_error σ ?h = nth_error σ' ?h |- _ => rewrite E in H end;
    try (econstructor; eauto; try (eapply (proj1 (den_agree σ σ')); eauto; fail); try congruence; try (rewrite (at_place_agree σ σ'); eauto; fail);
         try (eapply away_agree; eauto); fail).
Qed.

(** ** hiding values *)
Lemma nth_ext' {A} (l l' : list A) : (forall j, nth_error l j = nth_error l' j) -> l = l'.
Proof.
  revert l'. induction l as [|x l IH]; intros [|y l'] H; auto; try (specialize (H O); discriminate).
  f_equal; [specialize (H O); cbn in H; congruence|]. apply IH. intros j. exact (H (S j)).
Qed.
Lemma kills_snoc {A} (d : A) (H : list nat) l x : (forall h, In h H -> (h < length l)%nat) -> kills d (l ++ [x]) H = kills d l H ++ [x].
  Proof.
    intros Hl. apply nth_ext'. intros j. rewrite nth_kills, !nth_snoc, kills_length, nth_kills.
    destruct (in_dec Nat.eq_dec j H) as [Hi|Hn]; [|destruct (Nat.eq_dec j (length l)); reflexivity].
    destruct (Nat.eq_dec j (length l)) as [->|]; [specialize (Hl _ Hi); lia|reflexivity].
  Qed.
Lemma kills_kills {A} (d : A) (H : list nat) l ms : kills d (kills d l ms) H = kills d (kills d l H) ms.
  Proof.
    apply nth_ext'. intros j. rewrite !nth_kills. destruct (in_dec Nat.eq_dec j H), (in_dec Nat.eq_dec j ms); try reflexivity.
  Qed.
Lemma kills_update {A} (d : A) (H : list nat) l h x : ~ In h H -> kills d (update l h x) H = update (kills d l H) h x.
  Proof.
    intros Hn. apply nth_ext'. intros j. rewrite nth_update, !nth_kills, nth_update. destruct (Nat.eq_dec h j) as [->|]; [|reflexivity].
    destruct (in_dec Nat.eq_dec j H); [contradiction|reflexivity].
  Qed.
Lemma kills_agree {A} (d : A) (H : list nat) l hs : (forall h, In h hs -> ~ In h H) -> agree hs l (kills d l H).
  Proof. intros Hd h Hh. rewrite nth_kills. destruct (in_dec Nat.eq_dec h H) as [Hi|]; [destruct (Hd h Hh Hi)|reflexivity]. Qed.
Definition hide_res {A} (H : list nat) (r : res config A) : res config A :=
  match r with
  | Ok a (w, sl) => Ok a (w, kill sl H)
  | Panic (w, sl) => Panic (w, kill sl H)
  | UB u => UB u
  end.
Lemma resolve_agree sl sl' pl : nth_error sl (place_handle pl) = nth_error sl' (place_handle pl) -> resolve sl' pl = resolve sl pl.
Proof. destruct pl; cbn [place_handle resolve]; intros ->; reflexivity. Qed.
Lemma bind_ext {X A B} (m m' : M X A) (k : A -> M X B) s : m s = m' s -> bind m k s = bind m' k s.
Proof. intros H. unfold bind. now rewrite H. Qed.
Lemma bind_ext2 {X A B} (m m' : M X A) (k k' : A -> M X B) s : m s = m' s -> (forall a s', k a s' = k' a s') -> bind m k s = bind m' k' s.
Proof. intros H Hk. unfold bind. rewrite H. destruct (m' s); auto. Qed.
Lemma eval_agree sl sl' : forall p, agree (moves p ++ borrows p) sl sl' -> forall w, eval sl' p w = eval sl p w.
Proof.
  fix IH 1. intros [v|v|n ai|ai|n cl pl j lo k|cl pl j lo k|h|pl|pl|p|ps]; cbn [eval moves borrows app]; intros Ha w; try reflexivity.
  - unfold slice_init. rewrite (resolve_agree sl sl' pl); [reflexivity|]. apply Ha. left. reflexivity.
  - unfold slice_init. rewrite (resolve_agree sl sl' pl); [reflexivity|]. apply Ha. left. reflexivity.
  - rewrite <- (Ha h); [reflexivity|left; reflexivity].
  - rewrite (resolve_agree sl sl' pl); [reflexivity|]. apply Ha. left. reflexivity.
  - rewrite (resolve_agree sl sl' pl); [reflexivity|]. apply Ha. left. reflexivity.
  - unfold bind. now rewrite (IH p Ha w).
  - apply bind_ext. revert w Ha. induction ps as [|p ps IHps]; intros w Ha; [reflexivity|]. cbn [map concat] in Ha.
    assert (Hp : agree (moves p ++ borrows p) sl sl') by (rewrite !agree_app in *; tauto).
    assert (Hr : agree (concat (map moves ps) ++ concat (map borrows ps)) sl sl') by (rewrite !agree_app in *; tauto).
    apply bind_ext2; [exact (IH p Hp w)|]. intros i w1. apply bind_ext. exact (IHps w1 Hr).
Qed.
Lemma lft_ext' {A} (m m' : M world A) : (forall w, m w = m' w) -> forall ws, lft m ws = lft m' ws.
Proof. intros H [w s]. unfold lft. now rewrite H. Qed.
Lemma call_hide {A} (m m' : M world A) k k' kp kp' H w : m w = m' w -> (forall a, fst (k a) = fst (k' a) /\ snd (k a) = kill (snd (k' a)) H) -> kp = kill kp' H ->
  call m k kp w = hide_res H (call m' k' kp' w).
Proof.
  intros E1 E2 E3. unfold call. rewrite E1. destruct (m' w) as [a w'|w'|u]; cbn [hide_res]; [|now rewrite E3|reflexivity].
  destruct (E2 a) as [-> ->]. reflexivity.
Qed.
Lemma call_seq_hide {A} (m m' : SM A) s k k' kp kp' H w : m (w, s) = m' (w, s) -> (forall a s', fst (k a s') = fst (k' a s') /\ snd (k a s') = kill (snd (k' a s')) H) ->
  (forall s', kp s' = kill (kp' s') H) -> call_seq m s k kp w = hide_res H (call_seq m' s k' kp' w).
Proof.
  intros E1 E2 E3. unfold call_seq. rewrite E1. destruct (m' (w, s)) as [a [w' s']|[w' s']|u]; cbn [hide_res]; [|now rewrite E3|reflexivity].
  destruct (E2 a s') as [-> ->]. reflexivity.
Qed.
Lemma exec_hide o w sl H : (forall h, In h (mentions o) -> ~ In h H) -> (forall h, In h H -> (h < length sl)%nat) ->
  exec o (w, kill sl H) = hide_res H (exec o (w, sl)).
Proof.
  intros Hm Hl. pose proof (kills_agree SDead H sl _ Hm) as Ha.
  assert (Kl : forall ms h, In h H -> (h < length (kill sl ms))%nat) by (intros ms h Hh; change (kill sl ms) with (kills SDead sl ms); rewrite kills_length; auto).
  assert (K1 : forall x l, (forall h, In h H -> (h < length l)%nat) -> kill l H ++ [x] = kill (l ++ [x]) H) by (intros x l Hx; symmetry; exact (kills_snoc SDead H l x Hx)).
  assert (K2 : forall ms, kill (kill sl H) ms = kill (kill sl ms) H) by (intros ms; exact (kills_kills SDead ms sl H)).
  assert (K3 : forall l h x, ~ In h H -> update (kill l H) h x = kill (update l h x) H) by (intros l h x Hn; symmetry; exact (kills_update SDead H l h x Hn)).
  change (kills SDead sl H) with (kill sl H) in Ha.
  destruct o; cbn [mentions exec] in *; rewrite ?agree_cons in Ha;
    repeat match goal with H0 : _ /\ _ |- _ => destruct H0 end;
    repeat match goal with E : nth_error sl ?h = nth_error (kill sl H) ?h |- _ =>
      try rewrite (resolve_agree sl (kill sl H)) by exact E; try rewrite <- E; revert E end; intros;
    try rewrite (resolve_agree sl (kill sl H)) by assumption;
    repeat match goal with |- match ?x with _ => _ end = hide_res _ (match ?x with _ => _ end) => destruct x as [] eqn:? end;
    try reflexivity; try (cbn [hide_res]; rewrite ?K2, ?K1 by auto; reflexivity);
    try (apply call_hide; [try reflexivity; apply bind_ext, eval_agree; assumption|intros; cbn [fst snd]; split; [reflexivity|]|]; rewrite ?K2, ?K1 by auto; auto; fail);
    try (apply call_seq_hide; [try reflexivity; apply bind_ext, lft_ext', eval_agree; assumption|intros; cbn [fst snd]; split; [reflexivity|]|intros]; rewrite ?K2, ?K3 by auto with datatypes; auto; fail).
Qed.

Lemma put_hide σ pl v H : ~ In (place_handle pl) H -> put_place (kill_vals σ H) pl v = kill_vals (put_place σ pl v) H.
Proof.
  intros Hn. assert (E : nth_error (kill_vals σ H) (place_handle pl) = nth_error σ (place_handle pl)) by (apply nth_kill_vals, Hn).
  assert (K : forall h x, ~ In h H -> replace_nth (kill_vals σ H) h x = kill_vals (replace_nth σ h x) H) by (intros h x Hx; symmetry; exact (kills_update ADead H σ h x Hx)).
  destruct pl; cbn [place_handle put_place] in *; rewrite E;
    repeat match goal with |- match ?x with _ => _ end = kill_vals (match ?x with _ => _ end) _ => destruct x as [] end; auto.
Qed.
(** The functional account of an operation does not depend on hidden values either. *)
Lemma astep_hide σ o r σ' d H : astep σ o r σ' d -> (forall h, In h (mentions o) -> ~ In h H) -> (forall h, In h H -> (h < length σ)%nat) ->
  astep (kill_vals σ H) o r (kill_vals σ' H) d.
Proof.
  intros Hs Hm Hl. pose proof (kills_agree ADead H σ _ Hm) as Ha. change (kills ADead σ H) with (kill_vals σ H) in Ha.
  assert (Kl : forall ms h, In h H -> (h < length (kill_vals σ ms))%nat) by (intros ms h Hh; change (kill_vals σ ms) with (kills ADead σ ms); rewrite kills_length; auto).
  assert (K1 : forall x l, (forall h, In h H -> (h < length l)%nat) -> kill_vals (l ++ [x]) H = kill_vals l H ++ [x]) by (intros x l Hx; exact (kills_snoc ADead H l x Hx)).
  assert (K2 : forall ms, kill_vals (kill_vals σ ms) H = kill_vals (kill_vals σ H) ms) by (intros ms; exact (kills_kills ADead H σ ms)).
  assert (K3 : forall l h x, ~ In h H -> kill_vals (replace_nth l h x) H = replace_nth (kill_vals l H) h x) by (intros l h x Hn; exact (kills_update ADead H l h x Hn)).
  destruct Hs; cbn [mentions] in *; rewrite ?agree_cons in Ha;
    repeat match goal with H0 : _ /\ _ |- _ => destruct H0 end;
    repeat match goal with H0 : nth_error σ ?h = Some _, E : nth_error σ ?h = nth_error (kill_vals σ H) ?h |- _ => rewrite E in H0 end;
    repeat match goal with H0 : at_place σ ?p = Some _, E : nth_error σ (place_handle ?p) = nth_error (kill_vals σ H) (place_handle ?p) |- _ =>
      rewrite <- (at_place_agree σ (kill_vals σ H) p E) in H0 end;
    repeat match goal with H0 : den σ ?t ?p ?i |- _ => apply (proj1 (den_agree σ (kill_vals σ H))) in H0; [|assumption] end;
    rewrite ?K3 by auto with datatypes; rewrite ?K1, ?K2 by auto; rewrite <- ?put_hide by (auto with datatypes);
    try (econstructor; eauto; fail).
Qed.
Lemma den_live σ :
  (forall t p i, den σ t p i -> forall h, In h (moves p ++ borrows p) -> exists u, nth_error σ h = Some u /\ u <> ADead) /\
  (forall fs ps is_, dens σ fs ps is_ -> forall h, In h (concat (map moves ps) ++ concat (map borrows ps)) -> exists u, nth_error σ h = Some u /\ u <> ADead).
Proof.
  assert (Hp : forall pl x, at_place σ pl = Some x -> exists u, nth_error σ (place_handle pl) = Some u /\ u <> ADead).
  { intros pl x. destruct pl; cbn [at_place place_handle]; destruct (nth_error σ h) as [[]|]; try discriminate; intros _; eexists; split; eauto; discriminate. }
  assert (Hs : forall f pl j lo k cl ai, slice_den σ f pl j lo k cl ai -> exists u, nth_error σ (place_handle pl) = Some u /\ u <> ADead).
  { intros f pl j lo k cl ai H. destruct H as [xs H1 _ _|xs H1 _]; unfold elements_at in H1; destruct (at_place σ pl) eqn:E; try discriminate; eapply Hp, E. }
  apply den_mut; intros; cbn [moves borrows map concat app In] in *; rewrite ?in_app_iff in *; cbn [In] in *;
    repeat match goal with H0 : _ \/ _ |- _ => destruct H0 | H0 : False |- _ => destruct H0 end; subst;
    eauto using in_or_app;
    try match goal with IH : forall h, _ -> exists u, _ |- _ => apply IH; rewrite ?in_app_iff; tauto end.
  - eexists; split; [eassumption|discriminate].
Qed.
Lemma place_live σ pl x : at_place σ pl = Some x -> exists u, nth_error σ (place_handle pl) = Some u /\ u <> ADead.
Proof. destruct pl; cbn [at_place place_handle]; destruct (nth_error σ h) as [[]|]; try discriminate; intros _; eexists; split; eauto; discriminate. Qed.
Lemma allowed_live σ o h : allowed σ o -> In h (mentions o) -> exists u, nth_error σ h = Some u /\ u <> ADead.
Proof.
  intros H. destruct H; cbn [mentions In]; intros Hi;
    repeat match goal with H0 : _ \/ _ |- _ => destruct H0 | H0 : False |- _ => destruct H0 end; subst;
    try (eapply place_live; eassumption); try (eapply (proj1 (den_live σ)); eassumption);
    eexists; (split; [eassumption|first [assumption|discriminate]]).
Qed.
Lemma disturbs_mentions o h : disturbs o h -> In h (mentions o).
Proof. destruct o; cbn [disturbs mentions In]; intros; rewrite ?in_app_iff; intuition. Qed.
Lemma put_other σ pl v h : h <> place_handle pl -> nth_error (put_place σ pl v) h = nth_error σ h.
Proof.
  intros Hn. destruct pl; cbn [place_handle put_place] in *;
    repeat match goal with |- nth_error (match ?x with _ => _ end) _ = _ => destruct x as [] end; try reflexivity;
    rewrite nth_replace_nth; destruct (Nat.eq_dec _ h); congruence.
Qed.
(** What an operation does not mention stays as it is. *)
Lemma astep_keep σ o r σ' d h u : astep σ o r σ' d -> ~ In h (mentions o) -> nth_error σ h = Some u -> nth_error σ' h = Some u.
Proof.
  intros H Hm Hu. destruct H; cbn [mentions In] in Hm; rewrite ?in_app_iff in Hm;
    first [ exact Hu
          | apply nth_app_some; rewrite ?nth_kill_vals by (cbn [In]; tauto); exact Hu
          | rewrite nth_kill_vals by (cbn [In]; tauto); exact Hu
          | rewrite !put_other by (intuition congruence); exact Hu
          | rewrite nth_replace_nth; destruct (Nat.eq_dec _ h) as [E|_]; [exfalso; tauto|]; rewrite ?nth_kill_vals by tauto; exact Hu ].
Qed.
Lemma exec_keep o w sl h r w' sl' : ~ In h (mentions o) -> (h < length sl)%nat -> ends (exec o (w, sl)) r w' sl' -> nth_error sl' h = nth_error sl h.
Proof. intros Hm. apply exec_slot. intros Hd. apply Hm, disturbs_mentions, Hd. Qed.
