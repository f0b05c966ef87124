(** SessSteps.v - next(), len() and the end of take_elems iterators (C59). *)
From Verif Require Export SessInv.

(** ** lists *)
Lemma nth_split_at {A} (l : list A) k x : nth_error l k = Some x -> l = firstn k l ++ x :: skipn (S k) l.
Proof. revert k. induction l as [|y l IH]; intros [|k] H; cbn in *; try discriminate; [congruence|]. f_equal. apply IH, H. Qed.
Lemma update_split {A} (l : list A) k x y : nth_error l k = Some x -> update l k y = firstn k l ++ y :: skipn (S k) l.
Proof. revert k. induction l as [|z l IH]; intros [|k] H; cbn in *; try discriminate; [reflexivity|]. f_equal. apply IH, H. Qed.
Lemma hidden_split xs k x : nth_error xs k = Some x -> hidden xs = hidden (firstn k xs) ++ hid1 x ++ hidden (skipn (S k) xs).
Proof. intros H. rewrite (nth_split_at _ _ _ H) at 1. unfold hidden. rewrite map_app, concat_app. reflexivity. Qed.
Lemma hidden_update xs k x y : nth_error xs k = Some x -> hidden (update xs k y) = hidden (firstn k xs) ++ hid1 y ++ hidden (skipn (S k) xs).
Proof. intros H. rewrite (update_split _ _ _ _ H). unfold hidden. rewrite map_app, concat_app. reflexivity. Qed.
Lemma hidden_snoc xs x : hidden (xs ++ [x]) = hidden xs ++ hid1 x.
Proof. unfold hidden. rewrite map_app, concat_app. cbn. now rewrite app_nil_r. Qed.
Lemma nodup_app_r {A} (a b : list A) : NoDup (a ++ b) -> NoDup b.
Proof. induction a as [|x a IH]; cbn [app]; intros H; [exact H|]. inversion H; subst. auto. Qed.
Lemma nodup_app_l {A} (a b : list A) : NoDup (a ++ b) -> NoDup a.
Proof.
  induction a as [|x a IH]; cbn [app]; intros H; [constructor|]. inversion H as [|? ? H1 H2]; subst. constructor; [|auto]. intros X. apply H1, in_or_app. auto.
Qed.
Lemma nodup_mid {A} (a b c b' : list A) : NoDup (a ++ b ++ c) -> NoDup b' -> incl b' b ->
  NoDup (a ++ b' ++ c) /\ incl (a ++ b' ++ c) (a ++ b ++ c) /\ forall x, In x b -> ~ In x b' -> ~ In x (a ++ b' ++ c).
Proof.
  intros H Hb Hi. split; [|split].
  - apply nodup_app_r in H as H2. revert H. induction a as [|x a IH]; cbn [app]; intros H.
    + clear H. revert Hb Hi. induction b' as [|y b' IH]; cbn [app]; intros Hb Hi; [now apply nodup_app_r in H2|].
      inversion Hb as [|? ? H3 H4]; subst. constructor; [|apply IH; auto; intros z Hz; apply Hi; right; exact Hz].
      intros X. apply in_app_or in X. destruct X as [X|X]; [contradiction|].
      assert (Hy : In y b) by (apply Hi; left; reflexivity). clear -H2 X Hy. induction b as [|z b IHb]; [contradiction|]. cbn [app] in H2. inversion H2; subst.
      destruct Hy as [->|Hy]; [apply H1, in_or_app; auto|auto].
    + inversion H; subst. constructor; [|auto]. intros X. apply H3. apply in_app_or in X. apply in_or_app. destruct X as [X|X]; [auto|]. right.
      apply in_app_or in X. apply in_or_app. destruct X as [X|X]; auto.
  - intros x X. apply in_app_or in X. apply in_or_app. destruct X as [X|X]; [auto|]. right. apply in_app_or in X. apply in_or_app. destruct X as [X|X]; auto.
  - intros x Hx Hn X. apply in_app_or in X. destruct X as [X|X]; [|apply in_app_or in X; destruct X as [X|X]; [contradiction|]].
    + clear -H X Hx. induction a as [|z a IH]; [contradiction|]. cbn [app] in H. inversion H; subst. destruct X as [->|X]; [|auto].
      apply H2. apply in_or_app. right. apply in_or_app. auto.
    + apply nodup_app_r in H. clear -H X Hx. induction b as [|z b IH]; [contradiction|]. cbn [app] in H. inversion H; subst. destruct Hx as [->|Hx]; [|auto].
      apply H2. apply in_or_app. auto.
Qed.
Lemma replace_update {A} (l : list A) k x : replace_nth l k x = update l k x.
Proof. reflexivity. Qed.

(** ** what the iterator sees *)
Lemma pending_objs w sl σ n t : Inv w sl σ n -> forall l a, pending sl σ t a l -> objs_at w t a (map snd l).
Proof.
  intros HI. induction l as [|[i v] l IH]; intros a; cbn [pending map snd objs_at]; [auto|]. intros [H1 H2]. split; [|auto].
  pose proof (proj1 (proj2 (proj2 HI)) _ _ _ H1) as Hr. cbn [rep] in Hr. apply Hr.
Qed.
Lemma sess_iter w sl σ n H x a g : Inv w sl σ n -> sess sl σ H x a g -> a_open a = true ->
  exists it, x_it x = Some it /\ iter_at w (x_t x) it (map snd (a_left a)) /\ pending sl σ (x_t x) (it_ptr it) (a_left a) /\
    it_ptr it + total (x_t x) (map snd (a_left a)) * sp_align (x_t x) < W.
Proof.
  intros HI (_ & S2 & _) Ho. unfold iter_ok in S2. rewrite Ho in S2. destruct S2 as (it & E1 & E2 & E3 & E4). exists it. split; [exact E1|].
  split; [|split; [exact E4|exact E3]]. split; [rewrite E2; unfold len; now rewrite map_length|]. split; [exact E3|]. eapply pending_objs; eauto.
Qed.
Lemma get_session slv σv H xs ax gs k a : entries slv σv H xs ax gs -> nth_error ax k = Some (Some a) ->
  exists x g, nth_error xs k = Some (Some x) /\ nth_error gs k = Some g /\ sess slv σv H x a g.
Proof.
  intros (L1 & L2 & HE) Ha. assert (k < length ax)%nat by (apply nth_error_Some; congruence).
  destruct (nth_error xs k) as [x|] eqn:Ex; [|apply nth_error_None in Ex; lia]. destruct (nth_error gs k) as [g|] eqn:Eg; [|apply nth_error_None in Eg; lia].
  pose proof (HE k x (Some a) g Ex Ha Eg) as Hs. destruct x as [x|]; cbn [entry] in Hs; [|contradiction]. eauto.
Qed.
Lemma entries_update sl σ H xs ax gs k x a g sl' σ' H' x' a' :
  entries sl σ H xs ax gs -> nth_error xs k = Some x -> nth_error ax k = Some a -> nth_error gs k = Some g ->
  entry sl' σ' H' x' a' g ->
  (forall j y b g', j <> k -> nth_error xs j = Some (Some y) -> nth_error ax j = Some (Some b) -> nth_error gs j = Some g' -> sess sl σ H y b g' -> sess sl' σ' H' y b g') ->
  entries sl' σ' H' (update xs k x') (update ax k a') gs.
Proof.
  intros (L1 & L2 & HE) Hx Ha Hg He Ho. split; [now rewrite !update_length|]. split; [now rewrite update_length|].
  intros j y b g' Hy Hb Hg'. rewrite nth_update in Hy. rewrite nth_update in Hb. destruct (Nat.eq_dec k j) as [->|Hne].
  - rewrite Hx in Hy. rewrite Ha in Hb. rewrite Hg in Hg'. cbn in Hy, Hb. injection Hy as <-. injection Hb as <-. injection Hg' as <-. exact He.
  - pose proof (HE j y b g' Hy Hb Hg') as Hs. destruct y, b; cbn [entry] in *; auto. eapply Ho; eauto.
Qed.

(** ** next() *)
Lemma next_step w sl xs σ ax n k : XInv w sl xs σ ax n -> xallowed σ ax (XNext k) -> xstep_res σ ax (XNext k) w n (xexec (XNext k) (w, sl, xs)).
Proof.
  intros (wv & slv & σv & gs & HR & HG & HI & -> & -> & HN & HH & HE) Hal.
  inversion Hal as [| |? a Ha Ho| | |]; subst. destruct (get_session _ _ _ _ _ _ _ _ HE Ha) as (x & g & Hx & Hg & Hs).
  destruct (sess_iter _ _ _ _ _ _ _ _ HI Hs Ho) as (it & Ei & Hit & Hp & Hb).
  destruct x as [h t chk s oit todo], a as [ah at_ achk aold aids aleft aop]. cbn [x_it a_open x_t a_left] in *. subst oit aop.
  pose proof Hs as ((S1 & S2 & S3 & S4 & S5) & Sit & Sbm & Sst & Si1 & Si2). cbn [x_h x_t x_chk x_todo a_h a_t a_chk a_left a_ids] in *. subst ah at_ achk.
  cbn [xexec]. rewrite Hx. pose proof (sim_next (concat gs) t it w wv HR) as Hsim.
  pose proof (proj1 S5) as Hwf.
  destruct aleft as [|[i v] left].
  - pose proof (iter_next_nil wv t it Hit) as E. rewrite E in Hsim. destruct Hsim as (w' & -> & HR'). cbn [xstep_res]. exists (kill_vals σv (hidden xs)), ax, [].
    split; [eapply XS_next_none; exact Ha|]. split; [destruct HR as (_ & _ & <- & _), HR' as (_ & _ & <- & _); now rewrite app_nil_r|].
    assert (Eu : update xs k (Some (mkX h t chk s (Some it) todo)) = xs) by (rewrite update_replace; now apply replace_same). rewrite Eu.
    exists wv, slv, σv, gs. auto 10.
  - destruct (iter_next_cons wv t it v (map snd left) Hwf Hit) as (it' & E & Hit' & Eit). rewrite E in Hsim. destruct Hsim as (w' & -> & HR').
    destruct todo as [|i0 todo]; [discriminate|]. cbn [map fst] in S4. injection S4 as -> ->. cbn [xstep_res].
    destruct Hp as [Hah Hp]. cbn [map snd total] in Hb.
    set (x' := mkX h t chk s (Some it') (map fst left)). set (a' := mkA h t chk aold aids left true).
    assert (Hd : hidden xs = hidden (firstn k xs) ++ hid1 (Some (mkX h t chk s (Some it) (i :: map fst left))) ++ hidden (skipn (S k) xs)) by (apply hidden_split, Hx).
    assert (Hd' : hidden (update xs k (Some x')) = hidden (firstn k xs) ++ hid1 (Some x') ++ hidden (skipn (S k) xs)) by (eapply hidden_update, Hx).
    assert (Hnd1 : NoDup (hid1 (Some (mkX h t chk s (Some it) (i :: map fst left))))).
    { rewrite Hd in HN. apply nodup_app_r in HN. now apply nodup_app_l in HN. }
    cbn [hid1 x_h x_todo] in Hnd1. inversion Hnd1 as [|? ? N1 N2]; subst. inversion N2 as [|? ? N3 N4]; subst.
    destruct (nodup_mid (hidden (firstn k xs)) (hid1 (Some (mkX h t chk s (Some it) (i :: map fst left)))) (hidden (skipn (S k) xs)) (hid1 (Some x'))) as (M1 & M2 & M3).
    { rewrite <- Hd. exact HN. }
    { cbn [hid1 x' x_h x_todo]. constructor; [|exact N4]. intros X. apply N1. right. exact X. }
    { cbn [hid1 x' x_h x_todo]. intros z [<-|Hz]; [left; reflexivity|right; right; exact Hz]. }
    rewrite <- Hd' in *. rewrite <- Hd in *.
    assert (Hni : ~ In i (hidden (update xs k (Some x')))).
    { apply M3; [right; left; reflexivity|]. cbn [hid1 x' x_h x_todo]. intros [X|X]; [apply N1; left; auto|contradiction]. }
    assert (Hsub : forall z, In z (hidden xs) -> In z (hidden (update xs k (Some x'))) \/ z = i).
    { intros z Hz. rewrite Hd in Hz. rewrite Hd'. rewrite !in_app_iff in *. cbn [hid1 x' x_h x_todo In] in *. intuition. }
    exists (kill_vals σv (hidden (update xs k (Some x')))), (replace_nth ax k (Some a')), [].
    split; [|split].
    + eassert (Ex : xstep _ ax (XNext k) (Done (OutBool true)) (_, _) []) by (eapply XS_next; exact Ha).
      replace (kill_vals σv (hidden (update xs k (Some x')))) with (replace_nth (kill_vals σv (hidden xs)) i (AOwn t v)); [exact Ex|].
      apply nth_ext'. intros j. rewrite replace_update, nth_update, !nth_kill_aval. destruct (Nat.eq_dec i j) as [<-|Hij].
      * destruct (in_dec Nat.eq_dec i (hidden (update xs k (Some x')))); [contradiction|]. destruct Hah as [_ ->]. destruct (in_dec _ _ _); reflexivity.
      * destruct (in_dec Nat.eq_dec j (hidden xs)) as [A|A], (in_dec Nat.eq_dec j (hidden (update xs k (Some x')))) as [B0|B0]; auto.
        { destruct (Hsub j A); congruence. } { destruct A. apply M2, B0. }
    + destruct HR as (_ & _ & <- & _), HR' as (_ & _ & <- & _). now rewrite app_nil_r.
    + exists wv, slv, σv, gs. split; [exact HR'|]. split; [exact HG|]. split; [exact HI|]. split; [|split; [reflexivity|split; [exact M1|split; [intros z Hz; apply HH, M2, Hz|]]]].
      * apply nth_ext'. intros j. rewrite nth_update, !nth_kill_slot. destruct (Nat.eq_dec i j) as [<-|Hij].
        -- destruct (in_dec Nat.eq_dec i (hidden (update xs k (Some x')))); [contradiction|]. destruct Hah as [-> _]. destruct (in_dec _ _ _); reflexivity.
        -- destruct (in_dec Nat.eq_dec j (hidden xs)) as [A|A], (in_dec Nat.eq_dec j (hidden (update xs k (Some x')))) as [B0|B0]; auto.
           { destruct (Hsub j A); congruence. } { destruct A. apply M2, B0. }
      * eapply entries_update; [exact HE|exact Hx|exact Ha|exact Hg| |].
        -- cbn [entry]. split; [repeat split; cbn [x_h x_t x_chk x_todo x_s a_h a_t a_chk a_left x' a']; auto; apply S5|].
           split; [|split; [exact Sbm|split; [exact Sst|]]].
           ++ unfold iter_ok. cbn [a_open a' x_it x' x_t a_left]. eexists. split; [reflexivity|]. cbn [it_len it_ptr]. split; [unfold len; now rewrite map_length|].
              split; [cbn [map snd]; nia|exact Hp].
           ++ split; [intros z Hz; apply Si1; right; exact Hz|]. cbn [a_ids a' x_todo x' x_t]. intros z Hz. destruct (Si2 z Hz) as [A1 A2]. split; [exact A1|].
              intros Hin. destruct (A2 (M2 z Hin)) as [<-|X]; [contradiction|exact X].
        -- intros j y b g' Hne Hy Hb' Hg' Hsj. eapply sess_keep; [exact Hsj| |auto|auto|auto|].
           ++ intros z Hz. apply in_hidden. eauto.
           ++ intros z _ Hz. apply M2, Hz.
Qed.
Lemma len_step w sl xs σ ax n k : XInv w sl xs σ ax n -> xallowed σ ax (XLen k) -> xstep_res σ ax (XLen k) w n (xexec (XLen k) (w, sl, xs)).
Proof.
  intros HX Hal. pose proof HX as (wv & slv & σv & gs & HR & HG & HI & _ & _ & HN & HH & HE).
  inversion Hal as [| | |? a Ha Ho| |]; subst. destruct (get_session _ _ _ _ _ _ _ _ HE Ha) as (x & g & Hx & Hg & Hs).
  destruct (sess_iter _ _ _ _ _ _ _ _ HI Hs Ho) as (it & Ei & (Hl & _) & _ & _).
  destruct x as [h t chk s oit todo]. cbn [x_it x_t] in *. subst oit. cbn [xexec]. rewrite Hx. cbn [xstep_res].
  exists σ, ax, []. split; [|split; [now rewrite app_nil_r|exact HX]]. unfold iter_len. rewrite Hl. unfold len. rewrite map_length. apply XS_len. exact Ha.
Qed.

(** ** the end of an iterator *)
Lemma inv_kill_own w n : forall hs sl σ, Inv w sl σ n ->
  (forall h, In h hs -> exists s v, at_h sl σ h s v /\ forall b, In b (hblocks s v) -> b_heap b = false) ->
  Inv w (kill sl hs) (kill_vals σ hs) n.
Proof.
  induction hs as [|h hs IH]; intros sl σ HI Hh; [exact HI|].
  destruct (Hh h (or_introl eq_refl)) as (s & v & Hah & Hb). pose proof HI as (Hbl & _ & Hrep & _).
  assert (HI1 : Inv w (kill sl [h]) (kill_vals σ [h]) n).
  { apply (inv_drop w sl σ n w h s v HI Hah Hbl).
    - intros b Hin _. split; [exact Hin|reflexivity].
    - intros b Hin Hhp. split; [exact Hin|]. intros X. rewrite (Hb b) in Hhp; [discriminate|]. eapply hblock_base; eauto. }
  change (kill sl (h :: hs)) with (kill (kill sl [h]) hs). change (kill_vals σ (h :: hs)) with (kill_vals (kill_vals σ [h]) hs). apply IH; [exact HI1|].
  intros h' Hin. destruct (Hh h' (or_intror Hin)) as (s' & v' & Hah' & Hb'). destruct (Nat.eq_dec h' h) as [->|Hne].
  - exists SDead, ADead. split; [|intros b []]. exact (at_h_update_r sl σ h SDead ADead _ _ Hah).
  - exists s', v'. split; [|exact Hb']. apply at_h_keep; [exact Hah'|]. intros [E|[]]. congruence.
Qed.
Lemma pending_own sl σ t : forall l a i, pending sl σ t a l -> In i (map fst l) -> exists p v, at_h sl σ i (SOwn t p) (AOwn t v).
Proof.
  induction l as [|[j v] l IH]; intros a i; cbn [pending map fst In]; [intros _ []|]. intros [H1 H2] [<-|Hi]; eauto.
Qed.
Lemma drops_of_map l : drops_of (map EDrop l) = l.
Proof. induction l as [|x l IH]; cbn; [reflexivity|now rewrite IH]. Qed.
Lemma end_step w sl xs σ ax n k keep : XInv w sl xs σ ax n -> xallowed σ ax (XEnd k keep) -> xstep_res σ ax (XEnd k keep) w n (xexec (XEnd k keep) (w, sl, xs)).
Proof.
  intros (wv & slv & σv & gs & HR & HG & HI & -> & -> & HN & HH & HE) Hal.
  inversion Hal as [| | | |? ? a Ha Ho|]; subst. destruct (get_session _ _ _ _ _ _ _ _ HE Ha) as (x & g & Hx & Hg & Hs).
  destruct (sess_iter _ _ _ _ _ _ _ _ HI Hs Ho) as (it & Ei & Hit & Hp & Hb).
  destruct x as [h t chk s oit todo], a as [ah at_ achk aold aids aleft aop]. cbn [x_it a_open x_t a_left] in *. subst oit aop.
  pose proof Hs as ((S1 & S2 & S3 & S4 & S5) & Sit & Sbm & Sst & Si1 & Si2). cbn [x_h x_t x_chk x_todo a_h a_t a_chk a_left a_ids] in *. subst ah at_ achk.
  cbn [xexec]. rewrite Hx. pose proof (proj1 S5) as Hwf.
  set (evs := if keep then [] else map EDrop (concat (map (fun p => vdrops t (snd p)) aleft))).
  assert (exists w' wv', (if keep then ret tt else owned_elems_drop t it) w = Ok tt w' /\ Rw (concat gs) w' wv' /\ w_log w' = w_log w ++ evs /\ Inv wv' slv σv n)
    as (w' & wv' & E & HR' & HL & HI').
  { pose proof HR as (_ & _ & El & _). unfold evs. destruct keep.
    - exists w, wv. split; [reflexivity|]. split; [exact HR|]. split; [now rewrite app_nil_r|exact HI].
    - pose proof (sim_elems_drop (concat gs) t it w wv HR) as Hsim. rewrite (owned_elems_drop_ok wv t it _ Hwf Hit) in Hsim. destruct Hsim as (w' & E & HR').
      exists w', (add_log wv (map EDrop (all_drops t (map snd aleft)))). split; [exact E|]. split; [exact HR'|]. split; [|now apply inv_log].
      destruct HR' as (_ & _ & <- & _). cbn [add_log w_log]. rewrite El. unfold all_drops. now rewrite map_map. }
  rewrite E. cbn [xstep_res].
  set (x' := mkX h t chk s None []). set (a' := mkA h t chk aold aids [] false).
  assert (Hd : hidden xs = hidden (firstn k xs) ++ hid1 (Some (mkX h t chk s (Some it) todo)) ++ hidden (skipn (S k) xs)) by (apply hidden_split, Hx).
  assert (Hd' : hidden (update xs k (Some x')) = hidden (firstn k xs) ++ hid1 (Some x') ++ hidden (skipn (S k) xs)) by (eapply hidden_update, Hx).
  assert (Hnd1 : NoDup (h :: todo)).
  { pose proof HN as HN1. rewrite Hd in HN1. apply nodup_app_r in HN1. now apply nodup_app_l in HN1. }
  destruct (nodup_mid (hidden (firstn k xs)) (hid1 (Some (mkX h t chk s (Some it) todo))) (hidden (skipn (S k) xs)) (hid1 (Some x'))) as (M1 & M2 & M3).
  { rewrite <- Hd. exact HN. }
  { cbn [hid1 x' x_h x_todo]. constructor; [intros []|constructor]. }
  { cbn [hid1 x' x_h x_todo]. intros z [<-|[]]. left; reflexivity. }
  rewrite <- Hd' in *. rewrite <- Hd in *.
  assert (Hni : forall i, In i todo -> ~ In i (hidden (update xs k (Some x')))).
  { intros i Hi. apply M3; [right; exact Hi|]. cbn [hid1 x' x_h x_todo]. intros [X|[]]. inversion Hnd1; subst. contradiction. }
  assert (Hsub : forall z, In z (hidden xs) -> In z (hidden (update xs k (Some x'))) \/ In z todo).
  { intros z Hz. rewrite Hd in Hz. rewrite Hd'. rewrite !in_app_iff in *. cbn [hid1 x' x_h x_todo In] in *. intuition. }
  assert (Hsub2 : forall z, In z todo -> In z (hidden xs)).
  { intros z Hz. rewrite Hd. rewrite !in_app_iff. right. left. right. exact Hz. }
  assert (HIk : Inv wv' (kill slv todo) (kill_vals σv todo) n).
  { apply inv_kill_own; [exact HI'|]. intros i Hi. rewrite S4 in Hi. destruct (pending_own _ _ _ _ _ _ Hp Hi) as (p & v & Hah).
    exists (SOwn t p), (AOwn t v). split; [exact Hah|]. cbn [hblocks]. intros b Hin. destruct (vsize t v =? 0); [contradiction|]. destruct Hin as [<-|[]]. reflexivity. }
  assert (K1 : kill (kill slv todo) (hidden (update xs k (Some x'))) = kill slv (hidden xs)).
  { apply nth_ext'. intros j. rewrite !nth_kill_slot. destruct (in_dec Nat.eq_dec j (hidden xs)) as [A|A], (in_dec Nat.eq_dec j (hidden (update xs k (Some x')))) as [B0|B0], (in_dec Nat.eq_dec j todo) as [C0|C0];
      try reflexivity; try (destruct (nth_error slv j); reflexivity); exfalso; auto. destruct (Hsub j A); auto. }
  assert (K2 : kill_vals (kill_vals σv todo) (hidden (update xs k (Some x'))) = kill_vals σv (hidden xs)).
  { apply nth_ext'. intros j. rewrite !nth_kill_aval. destruct (in_dec Nat.eq_dec j (hidden xs)) as [A|A], (in_dec Nat.eq_dec j (hidden (update xs k (Some x')))) as [B0|B0], (in_dec Nat.eq_dec j todo) as [C0|C0];
      try reflexivity; try (destruct (nth_error σv j); reflexivity); exfalso; auto. destruct (Hsub j A); auto. }
  exists (kill_vals σv (hidden xs)), (replace_nth ax k (Some a')), evs. split; [|split; [exact HL|]].
  - replace (drops_of evs) with (if keep then [] else concat (map (fun p => vdrops t (snd p)) aleft)) by (unfold evs; destruct keep; [reflexivity|now rewrite drops_of_map]).
    eapply XS_end. exact Ha.
  - exists wv', (kill slv todo), (kill_vals σv todo), gs. split; [exact HR'|]. split; [exact HG|]. split; [exact HIk|]. split; [now rewrite K1|]. split; [now rewrite K2|].
    split; [exact M1|]. split; [intros z Hz; change (kill slv todo) with (kills SDead slv todo); rewrite kills_length; apply HH, M2, Hz|].
    assert (Hkeep : forall z u v, ~ In z todo -> at_h slv σv z u v -> at_h (kill slv todo) (kill_vals σv todo) z u v) by (intros z u v Hz Hah; now apply at_h_keep).
    assert (Hids : forall z, nth_error (kill slv todo) z = nth_error slv z \/ nth_error (kill slv todo) z = Some SDead).
    { intros z. rewrite nth_kill_slot. destruct (in_dec _ _ _); [|auto]. destruct (nth_error slv z); cbn; auto. }
    assert (Hown : forall tiles ids, owners slv σv tiles ids -> owners (kill slv todo) (kill_vals σv todo) tiles ids).
    { intros tiles ids Hw z u v y Hah. destruct (at_h_kill _ _ _ _ _ _ Hah) as [[Hah0 _]|(_ & -> & ->)]; [apply (Hw z u v y Hah0)|intros []]. }
    eapply entries_update; [exact HE|exact Hx|exact Ha|exact Hg| |].
    + cbn [entry]. split; [repeat split; cbn [x_h x_t x_chk x_todo x_s a_h a_t a_chk a_left x' a']; auto; apply S5|].
      split; [split; reflexivity|]. split; [|split].
      * destruct Sbm as (bytes & B1 & B2). exists bytes. split; [|exact B2]. apply Hkeep; [|exact B1]. inversion Hnd1; subst. assumption.
      * destruct Sst as [Sst|(A1 & A2 & A3 & tiles & A4 & A5)]; [left; exact Sst|right]. split; [exact A1|]. split; [exact A2|]. split; [exact A3|]. exists tiles. split; [exact A4|]. now apply Hown.
      * split; [intros z []|]. cbn [a_ids a' x_todo x' x_t]. intros z Hz. destruct (Si2 z Hz) as [A1 A2]. split.
        -- destruct (Hids z) as [-> | ->]; auto.
        -- intros Hin. exact (Hni z (A2 (M2 z Hin)) Hin).
    + intros j y b g' Hne Hy Hb' Hg' Hsj. destruct Hsj as (T1 & T2 & T3 & T4 & T5).
      assert (Hyt : forall z, z = x_h y \/ In z (x_todo y) -> ~ In z todo).
      { intros z Hz Hzt. apply (Hni z Hzt). apply in_hidden. exists j, y. split; [rewrite nth_update; destruct (Nat.eq_dec k j); [congruence|exact Hy]|exact Hz]. }
      split; [exact T1|]. split; [|split; [|split]].
      * unfold iter_ok in *. destruct (a_open b); [|exact T2]. destruct T2 as (it2 & F1 & F2 & F3 & F4). exists it2. repeat split; auto.
        eapply pending_keep; [|exact F4]. intros z u v Hz. apply Hkeep, Hyt. right. destruct T1 as (_ & _ & _ & -> & _). exact Hz.
      * destruct T3 as (bytes & B1 & B2). exists bytes. split; [|exact B2]. apply Hkeep; [|exact B1]. apply Hyt. left. reflexivity.
      * destruct T4 as [T4|(A1 & A2 & A3 & tiles & A4 & A5)]; [left; exact T4|right]. split; [exact A1|]. split; [exact A2|]. split; [exact A3|]. exists tiles. split; [exact A4|]. now apply Hown.
      * destruct T5 as [T5 T6]. split; [exact T5|]. intros z Hz. destruct (T6 z Hz) as [A1 A2]. split; [destruct (Hids z) as [-> | ->]; auto|]. intros Hin. apply A2, M2, Hin.
Qed.
