(** SessInv.v - the invariant of programs with live take_elems iterators (C59). The storage of a borrowed
    sequence is divided (Sim.v) into its elements and its bitmap; each part belongs to a value of a
    program without iterators, of which the real program sees only some (Hidden.v). *)
From Verif Require Export SessSpec Hidden.

(** ** the invariant *)
Definition bm_ty (n : N) : vty := TFixed (mkF n 1 false Some).
Definition bm_bytes (chk : bool) (cap : N) : N := if chk then bitmap_bytes cap else 0.
Fixpoint pending (sl : list slot) (σ : list aval) (t : vty) (a : N) (l : list (nat * vval)) : Prop :=
  match l with
  | [] => True
  | (i, v) :: r => at_h sl σ i (SOwn t a) (AOwn t v) /\ pending sl σ t (a + cells t v * sp_align t) r
  end.
Definition hid1 (o : option session) : list nat := match o with Some x => x_h x :: x_todo x | None => [] end.
Definition hidden (xs : list (option session)) : list nat := concat (map hid1 xs).
Definition bits_ok (bytes : list cell) (old : list N) : Prop :=
  forall o b, o <> 0 -> nth_error bytes (N.to_nat (o / 8)) = Some (By b) -> N.testbit b (o mod 8) = true -> In o old.
Definition bm_at (sl : list slot) (σ : list aval) (x : session) (a : asession) : Prop :=
  let n := bm_bytes (x_chk x) (s_cap (x_s x)) in
  exists bytes, at_h sl σ (x_h x) (SOwn (bm_ty n) (s_ptr (x_s x) + s_cap (x_s x) * sp_align (x_t x))) (AOwn (bm_ty n) (VFix bytes)) /\
    (forall c, In c bytes -> exists b, c = By b /\ b < 256) /\ (x_chk x = true -> bits_ok bytes (a_old a)).
Definition owners (sl : list slot) (σ : list aval) (tiles : list block) (ids : list nat) : Prop :=
  forall h s v y, at_h sl σ h s v -> In y (hbases s v) -> In y (map b_base tiles) -> In h ids.
Definition store_at (sl : list slot) (σ : list aval) (x : session) (a : asession) (g : division) : Prop :=
  let s := x_s x in
  (s_cap s = 0 /\ 0 < s_ptr s < W /\ g = []) \/
  (0 < s_cap s /\ storage_bytes (x_t x) (x_chk x) (s_cap s) + (sp_align (x_t x) - 1) <= ISIZE_MAX /\ s_ptr s mod sp_align (x_t x) = 0 /\
   exists tiles, g = [(seq_block (x_t x) (x_chk x) s, tiles)] /\ owners sl σ tiles (x_h x :: a_ids a)).
Definition iter_ok (sl : list slot) (σ : list aval) (x : session) (a : asession) : Prop :=
  if a_open a then
    exists it, x_it x = Some it /\ it_len it = len (a_left a) /\
      it_ptr it + total (x_t x) (map snd (a_left a)) * sp_align (x_t x) < W /\ pending sl σ (x_t x) (it_ptr it) (a_left a)
  else x_it x = None /\ a_left a = [].
Definition ids_ok (sl : list slot) (H : list nat) (x : session) (a : asession) : Prop :=
  incl (x_todo x) (a_ids a) /\
  forall i, In i (a_ids a) -> (nth_error sl i = Some SDead \/ exists p, nth_error sl i = Some (SOwn (x_t x) p)) /\ (In i H -> In i (x_todo x)).
Definition same_sess (x : session) (a : asession) : Prop :=
  x_h x = a_h a /\ x_t x = a_t a /\ x_chk x = a_chk a /\ x_todo x = map fst (a_left a) /\
  wf_ty (x_t x) /\ nonzst (x_t x) /\ s_len (x_s x) = 0 /\ s_occ (x_s x) = 0.
Definition sess (sl : list slot) (σ : list aval) (H : list nat) (x : session) (a : asession) (g : division) : Prop :=
  same_sess x a /\ iter_ok sl σ x a /\ bm_at sl σ x a /\ store_at sl σ x a g /\ ids_ok sl H x a.
Definition entry (sl : list slot) (σ : list aval) (H : list nat) (x : option session) (a : option asession) (g : division) : Prop :=
  match x, a with
  | Some x, Some a => sess sl σ H x a g
  | None, None => g = []
  | _, _ => False
  end.
Definition entries (sl : list slot) (σ : list aval) (H : list nat) (xs : list (option session)) (ax : list (option asession)) (gs : list division) : Prop :=
  length xs = length ax /\ length xs = length gs /\
  forall k x a g, nth_error xs k = Some x -> nth_error ax k = Some a -> nth_error gs k = Some g -> entry sl σ H x a g.
Definition XInv (w : world) (sl : list slot) (xs : list (option session)) (σ : list aval) (ax : list (option asession)) (n : nat) : Prop :=
  exists wv slv σv gs,
    Rw (concat gs) w wv /\ NoDup (map fst (concat gs)) /\ Inv wv slv σv n /\
    sl = kill slv (hidden xs) /\ σ = kill_vals σv (hidden xs) /\
    NoDup (hidden xs) /\ (forall h, In h (hidden xs) -> (h < length slv)%nat) /\
    entries slv σv (hidden xs) xs ax gs.

(** ** small facts *)
Lemma nth_kill_slot sl H j : nth_error (kill sl H) j = if in_dec Nat.eq_dec j H then option_map (fun _ => SDead) (nth_error sl j) else nth_error sl j.
Proof. exact (nth_kills SDead H sl j). Qed.
Lemma nth_kill_aval σ H j : nth_error (kill_vals σ H) j = if in_dec Nat.eq_dec j H then option_map (fun _ => ADead) (nth_error σ j) else nth_error σ j.
Proof. exact (nth_kills ADead H σ j). Qed.
Lemma in_hidden xs h : In h (hidden xs) <-> exists k x, nth_error xs k = Some (Some x) /\ (h = x_h x \/ In h (x_todo x)).
Proof.
  unfold hidden. rewrite in_concat. split.
  - intros (l & Hl & Hh). apply in_map_iff in Hl. destruct Hl as ([x|] & <- & Hx); cbn [hid1] in Hh; [|contradiction].
    apply In_nth_error in Hx. destruct Hx as (k & Hk). exists k, x. split; [exact Hk|]. destruct Hh as [<-|Hh]; auto.
  - intros (k & x & Hk & Hh). exists (hid1 (Some x)). split; [|cbn [hid1 In]; intuition].
    apply in_map_iff. exists (Some x). split; [reflexivity|]. eapply nth_error_In, Hk.
Qed.
Lemma inv_world w w' sl σ n : Inv w sl σ n -> w_blocks w' = w_blocks w -> (forall x, w_mem w' x = w_mem w x) -> Inv w' sl σ n.
Proof.
  intros HI Hb Hm. apply (inv_step w sl σ n w' sl σ n [] 0%nat [] HI); try (apply HI).
  - rewrite Hb. apply HI.
  - intros b Hin _. rewrite Hb. split; [exact Hin|]. intros x _. apply Hm.
  - intros h s v Ha. left. split; [exact Ha|]. intros x _ [].
  - cbn. lia.
  - intros b Hin _. right. right. rewrite Hb in Hin. auto.
Qed.
Lemma pending_keep sl σ sl' σ' t : forall l a, (forall h s v, In h (map fst l) -> at_h sl σ h s v -> at_h sl' σ' h s v) ->
  pending sl σ t a l -> pending sl' σ' t a l.
Proof.
  induction l as [|[i v] l IH]; intros a H; cbn [pending map fst]; [auto|]. intros [H1 H2]. split; [apply H; [left; reflexivity|exact H1]|].
  apply IH; [|exact H2]. intros h s u Hh. apply H. right. exact Hh.
Qed.

(** ** operations that know nothing of the iterators *)
(** How one operation changes the slots. *)
Lemma slot_kind o w sl h r w' sl' : (h < length sl)%nat -> ends (exec o (w, sl)) r w' sl' ->
  nth_error sl' h = nth_error sl h \/ nth_error sl' h = Some SDead \/
  exists t c s s', nth_error sl h = Some (SSeq t c s) /\ nth_error sl' h = Some (SSeq t c s').
Proof.
  intros Hh He.
  assert (Hsn : forall l x, (h < length l)%nat -> nth_error (l ++ [x]) h = nth_error (l : list slot) h) by (intros l x Hl; apply nth_error_app1; exact Hl).
  assert (Hkl : forall hs, length (kill sl hs) = length sl) by (intros hs; change (kill sl hs) with (kills SDead sl hs); apply kills_length).
  assert (Hk : forall hs, nth_error (kill sl hs) h = nth_error sl h \/ nth_error (kill sl hs) h = Some SDead).
  { intros hs. rewrite nth_kill_slot. destruct (in_dec Nat.eq_dec h hs); [|auto]. destruct (nth_error sl h) eqn:E; [auto|apply nth_error_None in E; lia]. }
  assert (Hup : forall i t c s s' hs, nth_error sl i = Some (SSeq t c s) ->
     nth_error (update (kill sl hs) i (SSeq t c s')) h = nth_error sl h \/ nth_error (update (kill sl hs) i (SSeq t c s')) h = Some SDead \/
     exists t0 c0 s0 s1, nth_error sl h = Some (SSeq t0 c0 s0) /\ nth_error (update (kill sl hs) i (SSeq t c s')) h = Some (SSeq t0 c0 s1)).
  { intros i t c s s' hs Hi. rewrite nth_update. destruct (Nat.eq_dec i h) as [->|]; [|destruct (Hk hs); auto].
    right. right. exists t, c, s, s'. split; [exact Hi|]. destruct (Hk hs) as [-> | ->]; [rewrite Hi|]; reflexivity. }
  assert (Hk1 : forall i, nth_error (update sl i SDead) h = nth_error sl h \/ nth_error (update sl i SDead) h = Some SDead) by (intros i; exact (Hk [i])).
  pose proof (fun i t c s s' => Hup i t c s s' []) as Hup0. cbn [kill] in Hup0.
  destruct o; cbn [exec] in *; unfold call, call_seq in He;
    repeat match type of He with context [match ?m with _ => _ end] => destruct m as [] eqn:? end;
    destruct r; inversion He; subst; clear He; cbn [fst snd] in *;
    rewrite ?Hsn by (rewrite ?Hkl; exact Hh); auto;
    try (destruct (Hk (moves p)) as [-> | ->]; auto; fail); try (match goal with |- context [update sl ?i SDead] => destruct (Hk1 i); auto end; fail); try (eapply Hup; eassumption); try (eapply Hup0; eassumption).
Qed.

Lemma disturbs_dec o h : {disturbs o h} + {~ disturbs o h}.
Proof.
  destruct o; cbn [disturbs]; try apply Nat.eq_dec; try apply (in_dec Nat.eq_dec); try (right; intros H; exact H).
  destruct (Nat.eq_dec h h0); [left; auto|]. destruct (in_dec Nat.eq_dec h (moves p)); [left; auto|]. right. intros [E|E]; auto.
Qed.
Lemma disturbed_gone o w sl h r w' sl' t a : disturbs o h -> (h < length sl)%nat -> ends (exec o (w, sl)) r w' sl' -> nth_error sl' h <> Some (SOwn t a).
Proof.
  intros Hd Hh He E.
  assert (Hsn : forall l x, (h < length l)%nat -> nth_error (l ++ [x]) h = nth_error (l : list slot) h) by (intros l x Hl; apply nth_error_app1; exact Hl).
  assert (Hkl : forall hs, length (kill sl hs) = length sl) by (intros hs; change (kill sl hs) with (kills SDead sl hs); apply kills_length).
  assert (Hk : forall hs, In h hs -> nth_error (kill sl hs) h = Some SDead).
  { intros hs Hi. rewrite nth_kill_slot. destruct (in_dec Nat.eq_dec h hs); [|contradiction]. destruct (nth_error sl h) eqn:En; [auto|apply nth_error_None in En; lia]. }
  assert (Hk1 : nth_error (update sl h SDead) h = Some SDead) by (exact (Hk [h] (or_introl eq_refl))).
  assert (Hup : forall t0 c0 s0 (l : list slot), nth_error (update l h (SSeq t0 c0 s0)) h <> Some (SOwn t a)).
  { intros t0 c0 s0 l X. rewrite nth_update in X. destruct (Nat.eq_dec h h); [|congruence]. destruct (nth_error l h); discriminate. }
  destruct o; cbn [exec disturbs] in *; try contradiction; unfold call, call_seq in He;
    repeat match type of He with context [match ?m with _ => _ end] => destruct m as [] eqn:? end;
    destruct r; inversion He; subst; clear He; cbn [fst snd] in *;
    rewrite ?Hsn in E by (rewrite ?Hkl; exact Hh);
    try (rewrite Hk in E by auto; discriminate); try (rewrite Hk1 in E; discriminate); try (eapply Hup; eassumption);
    (destruct Hd as [->|Hd]; [eapply Hup; eassumption|]; rewrite nth_update in E; destruct (Nat.eq_dec _ h) as [->|]; [rewrite Hk in E by auto; discriminate|rewrite Hk in E by auto; discriminate]).
Qed.
(** A part of a divided block is owned by the same values as before. *)
Lemma own_step w sl σ n o r w' sl' σ' d n' h s v y b :
  Inv w sl σ n -> Inv w' sl' σ' n' -> allowed σ o -> astep σ o r σ' d -> ends (exec o (w, sl)) r w' sl' ->
  at_h sl' σ' h s v -> In y (hbases s v) -> In b (w_blocks w) -> In b (w_blocks w') -> b_base b = y -> b_heap b = false ->
  exists s0 v0, at_h sl σ h s0 v0 /\ In y (hbases s0 v0).
Proof.
  intros HI HI' Hal HA He Hah Hy Hb Hb' Eb Hhp.
  pose proof HI' as (Hbl' & Hlen' & Hrep' & _). pose proof (Hrep' _ _ _ Hah) as Hr.
  assert (Hc : In b (hblocks s v)) by (eapply hblock_base; [exact Hbl'|exact Hr|exact Hb'|rewrite Eb; exact Hy]).
  destruct s as [t a|t a|t c s|], v as [t' x|t' x|t' c' vs old|]; cbn [rep hblocks] in Hr, Hc; try contradiction.
  1:{ destruct Hc as [<-|[]]. discriminate. }
  2:{ destruct (s_cap s =? 0); [contradiction|]. destruct Hc as [<-|[]]. discriminate. }
  destruct Hr as (-> & Hwf & _). destruct (N.eqb_spec (vsize t' x) 0) as [E0|E0]; [contradiction|]. destruct Hc as [<-|[]]. cbn [own_block b_base] in Eb. subst y.
  destruct Hah as [Hs Hv]. destruct (Nat.lt_ge_cases h (length sl)) as [Hlt|Hge].
  - assert (Hnd : ~ disturbs o h) by (intros Hd; exact (disturbed_gone o w sl h r w' sl' t' a Hd Hlt He Hs)).
    rewrite (exec_slot o w sl h r w' sl' Hnd Hlt He) in Hs.
    destruct (nth_error σ h) as [u|] eqn:Eu; [|apply nth_error_None in Eu; pose proof (proj1 (proj2 HI)); lia].
    destruct (astep_shape w sl σ n o r σ' d h u HI Hal HA Hnd Eu) as (u' & Hu' & Hsh). rewrite Hv in Hu'. injection Hu' as <-.
    destruct u as [t1 x1|t1 x1|t1 c1 vs1 o1|]; cbn [same_shape] in Hsh; try contradiction. destruct Hsh as [-> Hsh].
    exists (SOwn t' a), (AOwn t' x1). split; [split; auto|]. unfold hbases. cbn [hblocks]. replace (vsize t' x1) with (vsize t' x) by (unfold vsize; now rewrite Hsh).
    destruct (N.eqb_spec (vsize t' x) 0); [contradiction|]. left. reflexivity.
  - exfalso. clear Hb' Hrep' Hbl'. assert (Hkl : forall hs, length (kill sl hs) = length sl) by (intros hs; change (kill sl hs) with (kills SDead sl hs); apply kills_length).
    assert (Hno : forall l : list slot, (length l <= length sl)%nat -> nth_error l h <> Some (SOwn t' a)).
    { intros l Hl E. assert (h < length l)%nat by (apply nth_error_Some; congruence). lia. }
    assert (Hu : forall i q l, length (update l i q) = length (l : list slot)) by (intros; apply update_length).
    destruct o; cbn [exec] in He; unfold call, call_seq in He;
      try (repeat match type of He with context [match ?m with _ => _ end] => destruct m as [] eqn:? end;
           destruct r; inversion He; subst; clear He; cbn [fst snd] in *;
           (eapply Hno; [|exact Hs]; rewrite ?Hu, ?Hkl, ?Hu; lia)).
    + repeat match type of He with context [match ?m with _ => _ end] => destruct m as [] eqn:? end;
        destruct r; inversion He; subst; clear He; cbn [fst snd] in *; try (eapply Hno; [|exact Hs]; rewrite ?Hu, ?Hkl, ?Hu; lia).
      rewrite nth_snoc, Hkl in Hs. destruct (Nat.eq_dec _ _); [discriminate|]. eapply Hno; [|exact Hs]. rewrite Hkl. lia.
    + inversion Hal as [|? ? i0 Hwf0 Hden Hbo| | | | | | | | | | | | | | | | | | | |]; subst.
      pose proof HI as (Hbl & _). destruct (proj1 (eval_all w sl σ n HI) t p i0 Hden Hwf0) as (i & E & En & Hi & Hm & Hsr).
      assert (Hus : usable w t i) by (eapply (eval_ready w sl σ n t p i []); eauto).
      rewrite (bind_ok _ _ _ _ _ E), owned_new_in_strip in He. pose proof (owned_new_in_cases t w i Hwf0 Hbl Hus) as HC.
      destruct (owned_new_in t i w) as [a1 w1|w1|u] eqn:Ex; [| |contradiction];
        (destruct r; inversion He; subst; clear He; cbn [fst snd] in *); [|eapply Hno; [|exact Hs]; rewrite ?Hkl; lia].
      rewrite nth_snoc, Hkl in Hs. destruct (Nat.eq_dec _ _) as [->|]; [|eapply Hno; [|exact Hs]; rewrite Hkl; lia]. injection Hs as -> ->.
      destruct HC as (v1 & Ev & Hat & Hsz & Hw' & Hbk & Hlog & Hut & Hva & Hft).
      destruct (fresh_apart _ _ _ _ Hva) as (_ & _ & _ & Fb & _). specialize (Fb _ Hb). cbn [own_block b_base b_size] in Fb.
      destruct Hbl as [Hbl _]. specialize (Hbl _ Hb). cbn [own_block b_base b_size] in Hbl.
      assert (Ez : isize t' i = 0 \/ 0 < isize t' i) by lia. destruct Ez as [Ez|Ez]; [|lia].
      assert (Hv1 : x = v1).
      { inversion HA; subst. rewrite nth_snoc in Hv. destruct (Nat.eq_dec _ _) as [_|Hne].
        - injection Hv as <-. match goal with A : den σ t' p ?j |- _ => assert (j = noaddr i) as -> by (eapply (proj1 (den_fun σ)); eassumption) end.
          match goal with A : ival _ (noaddr i) = Some _ |- _ => rewrite (proj1 ival_noaddr) in A; congruence end.
        - exfalso. apply Hne. change (kill_vals σ (moves p)) with (kills ADead σ (moves p)). rewrite kills_length. apply HI. }
      subst v1. lia.
    + destruct r; inversion He; subst; clear He. rewrite nth_snoc in Hs. destruct (Nat.eq_dec _ _); [discriminate|]. eapply Hno; [|exact Hs]. lia.
Qed.
(** Sessions do not notice changes of the other values. *)
Lemma sess_keep sl σ sl' σ' H H' x a g :
  sess sl σ H x a g -> (forall h, h = x_h x \/ In h (x_todo x) -> In h H) ->
  (forall h s v, In h H -> at_h sl σ h s v -> at_h sl' σ' h s v) ->
  (forall i, In i (a_ids a) -> nth_error sl' i = nth_error sl i \/ nth_error sl' i = Some SDead) ->
  (forall tiles, In tiles (map snd g) -> owners sl σ tiles (x_h x :: a_ids a) -> owners sl' σ' tiles (x_h x :: a_ids a)) ->
  (forall i, In i (a_ids a) -> In i H' -> In i H) ->
  sess sl' σ' H' x a g.
Proof.
  intros (S1 & S2 & S3 & S4 & S5 & S6) Hh Hk Hi Ho HH. split; [exact S1|]. split; [|split; [|split]].
  - unfold iter_ok in *. destruct (a_open a); [|exact S2]. destruct S2 as (it & E1 & E2 & E3 & E4). exists it. repeat split; auto.
    eapply pending_keep; [|exact E4]. intros h s v Hin. apply Hk, Hh. right. destruct S1 as (_ & _ & _ & -> & _). exact Hin.
  - destruct S3 as (bytes & E1 & E2). exists bytes. split; [apply Hk; [apply Hh; left; reflexivity|exact E1]|exact E2].
  - destruct S4 as [S4|(A1 & A2 & A3 & tiles & Eg & A4)]; [left; exact S4|]. right. split; [exact A1|]. split; [exact A2|]. split; [exact A3|]. exists tiles. split; [exact Eg|].
    apply Ho; [|exact A4]. rewrite Eg. left. reflexivity.
  - split; [exact S5|]. intros i Hin. destruct (S6 i Hin) as [A1 A2]. split; [|auto]. destruct (Hi i Hin) as [-> | ->]; auto.
Qed.
Lemma hidden_dead w sl σ n xs h u : Inv w sl σ n -> In h (hidden xs) -> nth_error (kill_vals σ (hidden xs)) h = Some u -> u = ADead.
Proof. intros _ Hi. rewrite nth_kill_aval. destruct (in_dec _ _ _); [|contradiction]. destruct (nth_error σ h); cbn; congruence. Qed.
Lemma in_tiles (gs : list division) k g tiles b : nth_error gs k = Some g -> In tiles (map snd g) -> In b tiles -> exists g0, In g0 (concat gs) /\ In b (snd g0).
Proof.
  intros Hk Ht Hb. apply in_map_iff in Ht. destruct Ht as (g0 & <- & Hg0). exists g0. split; [|exact Hb]. apply in_concat. exists g. split; [eapply nth_error_In, Hk|exact Hg0].
Qed.
Definition xstep_ok (σ : list aval) (ax : list (option asession)) (o : xop) (w : world) (r : outcome) (w' : world) (sl' : list slot) (xs' : list (option session)) (n' : nat) : Prop :=
  exists σ' ax' evs, xstep σ ax o r (σ', ax') (drops_of evs) /\ w_log w' = w_log w ++ evs /\ XInv w' sl' xs' σ' ax' n'.
Definition xstep_res (σ : list aval) (ax : list (option asession)) (o : xop) (w : world) (n : nat) (r : res xconfig out) : Prop :=
  match r with
  | Ok x (w', sl', xs') => xstep_ok σ ax o w (Done x) w' sl' xs' (match o with XOp o => given_up o n | _ => n end)
  | Panic (w', sl', xs') => xstep_ok σ ax o w Panicked w' sl' xs' (match o with XOp o => lost_by o n | _ => n end)
  | UB u => u = UNull /\ exists o', o = XOp o' /\ refused_box w σ o'
  end.
Lemma den_back σ H t p i o : (forall h, In h (mentions o) -> ~ In h H) -> o = ONewBox t p -> den σ t p i -> den (kill_vals σ H) t p i.
Proof.
  intros Hm -> Hd. apply (proj1 (den_agree σ (kill_vals σ H)) t p i Hd). intros h Hh. rewrite nth_kill_aval.
  destruct (in_dec Nat.eq_dec h H) as [Hi|]; [|reflexivity]. destruct (Hm h); auto.
Qed.
Lemma op_step w sl xs σ ax n o : XInv w sl xs σ ax n -> allowed σ o -> xstep_res σ ax (XOp o) w n (xexec (XOp o) (w, sl, xs)).
Proof.
  intros (wv & slv & σv & gs & HR & HG & HI & -> & -> & HN & HH & HE) Hal.
  assert (Hm : forall h, In h (mentions o) -> ~ In h (hidden xs)).
  { intros h Hh Hi. destruct (allowed_live _ _ _ Hal Hh) as (u & Hu & Hne). apply Hne. eapply hidden_dead; eauto. }
  assert (Hlen : length slv = length σv) by apply HI.
  assert (Hal' : allowed σv o).
  { apply (allowed_agree _ σv o Hal). apply agree_sym. exact (kills_agree ADead (hidden xs) σv _ Hm). }
  cbn [xexec]. rewrite (exec_hide o w slv (hidden xs) Hm HH).
  pose proof (sim_exec (concat gs) o w wv slv HR) as HS. pose proof (exec_ok wv slv σv n o HI Hal') as HX.
  assert (Hgen : forall r wv' slv' σv' d w' n', ends (exec o (wv, slv)) r wv' slv' -> astep σv o r σv' d -> Inv wv' slv' σv' n' -> Rw (concat gs) w' wv' ->
    XInv w' (kill slv' (hidden xs)) xs (kill_vals σv' (hidden xs)) ax n').
  { intros r wv' slv' σv' d w' n' He HA HI' HR'. exists wv', slv', σv', gs. split; [exact HR'|]. split; [exact HG|]. split; [exact HI'|]. split; [reflexivity|]. split; [reflexivity|]. split; [exact HN|].
    assert (Hkeep : forall h s v, In h (hidden xs) -> at_h slv σv h s v -> at_h slv' σv' h s v).
    { intros h s v Hin [A B]. assert (Hni : ~ In h (mentions o)) by (intros X; exact (Hm h X Hin)). split.
      - rewrite (exec_keep o wv slv h r wv' slv' Hni (HH h Hin) He). exact A.
      - eapply astep_keep; eauto. }
    split.
    - intros h Hin. specialize (HH h Hin). apply nth_error_Some. destruct (nth_error slv h) as [s|] eqn:Es; [|apply nth_error_None in Es; lia].
      destruct (nth_error σv h) as [v|] eqn:Ev; [|apply nth_error_None in Ev; lia]. destruct (Hkeep h s v Hin (conj Es Ev)) as [A _]. congruence.
    - destruct HE as (L1 & L2 & HE). split; [exact L1|]. split; [exact L2|]. intros k [x|] [a|] g Hx Ha Hg; pose proof (HE k _ _ g Hx Ha Hg) as Hs; cbn [entry] in *; auto.
      eapply sess_keep; [exact Hs| |exact Hkeep| | |auto].
      + intros h Hh. apply in_hidden. eauto.
      + intros i Hi. destruct Hs as (_ & _ & _ & _ & _ & S6). destruct (S6 i Hi) as [A1 _].
        assert (Hlt : (i < length slv)%nat) by (apply nth_error_Some; destruct A1 as [E|[p E]]; congruence).
        destruct (slot_kind o wv slv i r wv' slv' Hlt He) as [E|[E|(t & c & s & s' & E & _)]]; auto. destruct A1 as [E1|[p E1]]; congruence.
      + intros tiles Ht Ho h s v y Hah Hy Hin. apply in_map_iff in Hin. destruct Hin as (b & Eb & Hb).
        destruct (in_tiles gs k g tiles b Hg Ht Hb) as (g0 & Hg0 & Hb0).
        pose proof HR as (_ & _ & _ & _ & _ & _ & Hd & Hd2). pose proof HR' as (_ & _ & _ & _ & _ & _ & Hd' & _).
        destruct (own_step wv slv σv n o r wv' slv' σv' d n' h s v y b) as (s0 & v0 & Hah0 & Hy0); auto.
        * apply Hd. right. eauto.
        * apply Hd'. right. eauto.
        * exact (proj1 (proj2 (Hd2 g0 Hg0) b Hb0)).
        * eapply Ho; [exact Hah0|exact Hy0|]. apply in_map_iff. eauto. }
  assert (HHv : forall h, In h (hidden xs) -> (h < length σv)%nat) by (intros h Hin; rewrite <- Hlen; auto).
  assert (El : w_log wv = w_log w) by apply HR.
  destruct (exec o (wv, slv)) as [r [wv' slv']|[wv' slv']|u] eqn:Ee; cbn [step_res res_sim] in HX, HS.
  - destruct HS as (w' & -> & HR'). cbn [hide_res xstep_res]. destruct HX as (σv' & evs & HA & HL & HI').
    exists (kill_vals σv' (hidden xs)), ax, evs. split; [apply XS_op; now apply astep_hide|].
    split; [destruct HR' as (_ & _ & <- & _); rewrite <- El; exact HL|]. eapply (Hgen (Done r)); eauto. reflexivity.
  - destruct HS as (w' & -> & HR'). cbn [hide_res xstep_res]. destruct HX as (σv' & evs & HA & HL & HI').
    exists (kill_vals σv' (hidden xs)), ax, evs. split; [apply XS_op; now apply astep_hide|].
    split; [destruct HR' as (_ & _ & <- & _); rewrite <- El; exact HL|]. eapply (Hgen Panicked); eauto. reflexivity.
  - destruct HX as [-> (t & p & i & -> & Hden & Href)]. destruct HS as [HS|[HS|HS]]; [discriminate|discriminate|]. rewrite HS. cbn [hide_res xstep_res]. split; [reflexivity|].
    eexists. split; [reflexivity|]. exists t, p, i. split; [reflexivity|]. split; [eapply den_back; eauto|].
    intros q Hq. pose proof HR as (_ & Ht & _ & Ha & _ & _ & Hd). pose proof (divided_valid _ _ _ _ (w_tick w) q (isize t i) (sp_align t) Hd Hq) as Hdv.
    rewrite <- Ht, <- Ha in Hdv. destruct (w_alloc wv (w_tick wv) (isize t i) (sp_align t)) as [q'|] eqn:Eq; [|exact Hdv].
    destruct Hdv as [-> Hdv]. rewrite <- Hdv. apply Href. reflexivity.
Qed.
