(** History.v - properties of sequences after any history of pushes; cost of growth. *)
From Verif Require Export SeqExtend.

Lemma seq_at_env w w' t chk s vs :
  wf_ty t -> seq_at w t chk s vs ->
  (forall b, In b (w_blocks w) -> In (b_base b) (seq_base s) ->
     In b (w_blocks w') /\ forall x, b_base b <= x < b_base b + b_size b -> w_mem w' x = w_mem w x) ->
  seq_at w' t chk s vs /\ (forall old, chk = true -> bits_within w t s vs old -> bits_within w' t s vs old).
Proof.
  intros Hwf (A1 & A2 & A3 & A4) Hb. destruct A4 as [[[E E2] ->]|(B1 & B2 & B3 & B4 & B5 & B6)].
  - split; [split; [exact A1|split; [exact A2|split; [exact A3|left; auto]]]|]. intros old _ _ H. lia.
  - destruct (Hb _ B2) as [H1 H2].
    { unfold seq_base. destruct (N.eqb_spec (s_cap s) 0); [lia|left; reflexivity]. }
    cbn [seq_block b_base b_size] in H2. split.
    + split; [exact A1|]. split; [exact A2|]. split; [exact A3|]. right. repeat split; auto.
      * eapply elems_shift; [exact Hwf| |exact B5]. intros i Hi. apply H2. unfold storage_bytes. rewrite <- A2 in Hi. nia.
      * intros Hc j Hj. rewrite H2; [auto|]. subst chk.
        change (storage_bytes t true (s_cap s)) with (s_cap s * sp_align t + bitmap_bytes (s_cap s)). lia.
    + intros old Hc Hx. intros _ o Ho Hoc. specialize (Hx B1 o Ho Hoc). unfold bit_at in *. rewrite H2; [exact Hx|]. subst chk.
      change (storage_bytes t true (s_cap s)) with (s_cap s * sp_align t + bitmap_bytes (s_cap s)).
      assert (o / 8 < bitmap_bytes (s_cap s)) by (apply N.div_lt_upper_bound; lia). lia.
Qed.

Lemma hist_inv t chk w s is_ :
  wf_ty t -> nonzst t -> hist t chk w s is_ ->
  exists vs, ivalues t is_ vs /\ seq_at w t chk s vs /\ wf_blocks (w_blocks w) /\ (chk = true -> bits_exact w t s vs).
Proof.
  intros Hwf Hz. induction 1 as [w Hbl|w s is_ i w' s' H IH Hr E|w s is_ i w' s' H IH Hr E|w s is_ w' H IH Hbl' Hb].
  - exists []. split; [reflexivity|]. split; [apply seq_new_at; auto|]. split; [exact Hbl|]. intros _. apply bits_within_exact, seq_new_bits.
  - destruct IH as (vs & I1 & I2 & I3 & I4). pose proof (push_inv_ok t chk w s i vs Hwf Hz I3 I2 Hr) as HP. rewrite E in HP.
    destruct HP as (v & Ev & P1 & P2 & P3 & P4 & _). exists (vs ++ [v]). split; [|split; [exact P1|split; [exact P2|intros Hc; apply bits_within_exact, P4; [exact Hc|apply bits_within_exact; auto]]]].
    unfold ivalues in *. rewrite !map_app, I1. cbn. now rewrite Ev.
  - destruct IH as (vs & I1 & I2 & I3 & I4). pose proof (push_inv_ok t chk w s i vs Hwf Hz I3 I2 Hr) as HP. rewrite E in HP.
    destruct HP as (P1 & P2 & P3 & P4 & _). exists vs. split; [exact I1|split; [exact P1|split; [exact P2|intros Hc; apply bits_within_exact, P4; [exact Hc|apply bits_within_exact; auto]]]].
  - destruct IH as (vs & I1 & I2 & I3 & I4). destruct (seq_at_env w w' t chk s vs Hwf I2 Hb) as [J1 J2]. exists vs. split; [exact I1|split; [exact J1|split; [exact Hbl'|intros Hc; apply bits_within_exact, J2; [exact Hc|apply bits_within_exact; auto]]]].
Qed.
Lemma ivalues_app t xs ys vs : ivalues t (xs ++ ys) vs -> exists v1 v2, vs = v1 ++ v2 /\ ivalues t xs v1 /\ ivalues t ys v2.
Proof.
  unfold ivalues. revert vs; induction xs as [|x xs IH]; intros vs H; cbn [app map] in *.
  - exists [], vs. auto.
  - destruct vs as [|v vs]; [discriminate|]. cbn [map] in H. injection H as H1 H2. destruct (IH vs H2) as (v1 & v2 & -> & E1 & E2).
    exists (v :: v1), v2. cbn. rewrite H1, E1. auto.
Qed.
Lemma ivalues_inj t is_ v1 v2 : ivalues t is_ v1 -> ivalues t is_ v2 -> v1 = v2.
Proof.
  unfold ivalues. intros H1 H2. rewrite H1 in H2. clear H1. revert v2 H2; induction v1 as [|x v1 IH]; intros [|y v2] H; try discriminate; auto.
  cbn in H. injection H as -> H. f_equal. auto.
Qed.
Lemma ivalues_cons t i is_ vs : ivalues t (i :: is_) vs -> exists v vs', vs = v :: vs' /\ ival t i = Some v /\ ivalues t is_ vs'.
Proof. unfold ivalues. destruct vs as [|v vs]; [discriminate|]. cbn. intros H. injection H as H1 H2. eauto. Qed.
Lemma ivalues_len t is_ vs : ivalues t is_ vs -> len vs = len is_.
Proof. unfold ivalues. intros H. unfold len. f_equal. rewrite <- (map_length (ival t) is_), H, map_length. reflexivity. Qed.

(** ** growth of one push *)
Lemma requested_app l1 l2 : requested (l1 ++ l2) = requested l1 + requested l2.
Proof. induction l1 as [|e l1 IH]; [reflexivity|]. destruct e; cbn [app requested]; rewrite IH; lia. Qed.
Lemma requests_app l1 l2 : requests (l1 ++ l2) = requests l1 + requests l2.
Proof. induction l1 as [|e l1 IH]; [reflexivity|]. destruct e; cbn [app requests]; rewrite IH; lia. Qed.
Lemma requested_drops l : requested (map EDrop l) = 0.
Proof. induction l; cbn; auto. Qed.
Lemma requests_0 l : requests l = 0 -> requested l = 0.
Proof. induction l as [|e l IH]; [reflexivity|]. destruct e; cbn [requests requested]; intros H; try lia; auto. Qed.
Lemma requests_drops l : requests (map EDrop l) = 0.
Proof. induction l; cbn; auto. Qed.
Lemma requests_dev f l : requests (drop_events f l) = 0.
Proof. unfold drop_events. destruct (f_drop f); [apply requests_drops|reflexivity]. Qed.
Lemma requests_gen items : (forall x, In x items -> requests (fst x) = 0) -> requests (fst (gen_run items)) = 0.
Proof.
  induction items as [|[pre o] items IH]; intros H; [reflexivity|]. cbn [gen_run].
  pose proof (H _ (or_introl eq_refl)) as H0. cbn in H0. destruct o; cbn [fst]; [|exact H0].
  rewrite requests_app, H0, IH; [reflexivity|]. intros x Hx. apply H. right. exact Hx.
Qed.
Lemma requests_arun f n ai : requests (fst (arun f n ai)) = 0.
Proof.
  destruct ai; cbn [arun fst]; try reflexivity.
  - apply requests_gen. intros x Hx. apply in_map_iff in Hx. destruct Hx as (j & <- & _). reflexivity.
  - apply requests_gen. intros x Hx. apply in_map_iff in Hx. destruct Hx as (j & <- & _). reflexivity.
  - apply requests_gen. intros x Hx. apply in_map_iff in Hx. destruct Hx as (j & <- & _). reflexivity.
  - destruct (_ =? _); [|reflexivity]. apply requests_gen. intros x Hx. apply in_map_iff in Hx. destruct Hx as (j & <- & _). reflexivity.
  - destruct (_ =? _); [|reflexivity]. apply requests_gen. intros x Hx. apply in_map_iff in Hx. destruct Hx as (j & <- & _). reflexivity.
  - destruct (_ =? _); cbn [fst]; [reflexivity|apply requests_dev].
Qed.
Lemma requests_adrop f ai : requests (adrop f ai) = 0.
Proof. destruct ai; cbn [adrop]; try reflexivity. apply requests_dev. Qed.
Lemma requests_concat l : Forall (fun e => requests e = 0) l -> requests (concat l) = 0.
Proof. induction 1 as [|e l H Hl IH]; [reflexivity|]. cbn [concat]. rewrite requests_app. lia. Qed.
Lemma requests_idrop :
  (forall t i, requests (idrop t i) = 0) /\
  (forall fs is_, Forall (fun e => requests e = 0) (idrops fs is_)).
Proof.
  assert (Hb : forall l a n al, requests (map EDrop l ++ [EDealloc a n al]) = 0) by (intros; rewrite requests_app, requests_drops; reflexivity).
  apply vty_flds_ind.
  - intros f i. destruct i; cbn [idrop]; try reflexivity; auto using requests_dev, requests_drops.
  - intros f k i. destruct i; cbn [idrop]; try reflexivity; auto using requests_adrop, requests_drops.
  - intros t IH i. destruct i; cbn [idrop]; try reflexivity; auto using requests_drops.
  - intros kd hs ha fs IH i. destruct i; cbn [idrop]; try reflexivity; auto using requests_drops, requests_concat.
  - intros is_. destruct is_; constructor.
  - intros off f r IH is_. destruct is_ as [|[] is_]; cbn [idrops]; constructor; auto using requests_dev.
  - intros off f r IH is_. destruct is_ as [|[] is_]; cbn [idrops]; constructor; auto using requests_dev.
  - intros t IHt r IH is_. destruct is_ as [|i is_]; cbn [idrops]; constructor; auto.
  - intros f lf r IH is_. destruct is_ as [|[] is_]; cbn [idrops]; constructor; auto using requests_adrop.
Qed.
Lemma requests_unwinds kd temps rest :
  requests temps = 0 -> Forall (fun e => requests e = 0) rest -> requests (unwinds kd temps rest) = 0.
Proof.
  intros H1 H2. destruct kd; cbn [unwinds].
  - apply requests_concat. rewrite Forall_forall in *. intros x Hx. apply H2. now apply in_rev.
  - rewrite requests_app, requests_concat by auto. lia.
Qed.
Lemma requests_irun :
  (forall t i, requests (fst (irun t i)) = 0) /\
  (forall fs kd is_ cs temps, requests temps = 0 -> requests (fst (fruns kd fs is_ cs temps)) = 0).
Proof.
  apply vty_flds_ind.
  - intros f i. destruct i; reflexivity.
  - intros f k i. destruct i; cbn [irun fst]; try reflexivity. apply requests_arun.
  - intros t IH i. destruct i; cbn [irun fst]; try reflexivity. apply IH.
  - intros kd hs ha fs IH i. destruct i; cbn [irun fst]; try reflexivity. apply IH. reflexivity.
  - intros kd is_ cs temps Ht. destruct is_; reflexivity.
  - intros off f r IH kd is_ cs temps Ht. destruct is_ as [|[] is_]; cbn [fruns fst]; try reflexivity.
    apply IH. rewrite requests_app, requests_dev. lia.
  - intros off f r IH kd is_ cs temps Ht. destruct is_ as [|[] is_]; cbn [fruns fst]; try reflexivity.
    apply IH. rewrite requests_app, requests_dev. lia.
  - intros t IHt r IH kd is_ cs temps Ht. destruct is_ as [|i is_]; cbn [fruns fst]; try reflexivity.
    specialize (IHt i). destruct (irun t i) as [e [v|]]; cbn [fst] in *; rewrite requests_app, IHt.
    + apply IH, Ht.
    + apply requests_unwinds; auto. apply requests_idrop.
  - intros f lf r IH kd is_ cs temps Ht. destruct is_ as [|[] is_]; cbn [fruns fst]; try reflexivity.
    pose proof (requests_arun f (lf cs) ai) as Ha. destruct (arun f (lf cs) ai) as [e [v|]]; cbn [fst] in *; rewrite requests_app, Ha.
    + apply IH, Ht.
    + apply requests_unwinds; auto. apply requests_idrop.
Qed.

(** What a push asks of the allocator, and the capacity it leaves. *)
Definition growth_spec (t : vty) (chk : bool) (w : world) (s : sq) (i : init) (w' : world) (s' : sq) (ok : bool) : Prop :=
  let need := s_occ s + icells t i in
  exists evs, w_log w' = w_log w ++ evs /\
  (need <= s_cap s -> s_cap s' = s_cap s /\ s_ptr s' = s_ptr s /\ requests evs = 0 /\ w_tick w' = w_tick w) /\
  (s_cap s < need ->
     (s_cap s' = new_cap t need (s_cap s) /\ requests evs = 1 /\ requested evs = storage_bytes t chk (s_cap s')) \/
     (ok = false /\ s' = s /\ requests evs = 0)).
Lemma push_growth t chk w s i vs :
  wf_ty t -> nonzst t -> wf_blocks (w_blocks w) -> seq_at w t chk s vs -> push_ready w t chk s i ->
  match seq_push t chk i (w, s) with
  | Ok _ (w', s') => growth_spec t chk w s i w' s' true
  | Panic (w', s') => growth_spec t chk w s i w' s' false
  | UB _ => False
  end.
Proof.
  intros Hwf Hz Hbl Hat Hr. pose proof (seq_push_cases t chk w s i vs Hwf Hz Hbl Hat Hr) as HP.
  unfold push_spec in HP. destruct HP as [(w1 & w' & -> & Href & U)|(Hzl & w1 & s1 & w2 & Hroom & Hneed & Hbl1 & Hat1 & Hr1 & Hmk & [Hf Hbx] & Hbits & Hat2 & HP)].
  - exists (idrop t i). split; [|split].
    + rewrite (upd_log_eq _ _ _ _ _ _ U). f_equal. apply (push_refused_same _ _ _ _ _ _ Href).
    + intros Hle. destruct Href as [[_ ->]|[Hg _]]; [|lia]. repeat split; [apply requests_idrop|apply U].
    + intros _. right. split; [reflexivity|]. split; [reflexivity|]. apply requests_idrop.
  - destruct Hmk as (M1 & M2 & M3 & M4 & M5).
    assert (Hgen : forall w' s' ok, upd w2 w' (s_ptr s1 + s_occ s1 * sp_align t) (isize t i) (ibases t i) (fst (irun t i)) ->
      s_cap s' = s_cap s1 -> s_ptr s' = s_ptr s1 -> growth_spec t chk w s i w' s' ok).
    { intros w' s' ok U Ec Ep. pose proof (upd_log_eq _ _ _ _ _ _ U) as El. rewrite M4 in El.
      assert (Et : w_tick w' = w_tick w1) by (rewrite <- M3; apply U).
      pose proof (proj1 requests_irun t i) as Hri.
      destruct Hroom as [(H & -> & ->)|(Hg & Es & G)].
      - exists (fst (irun t i)). split; [exact El|]. split; [auto|lia].
      - destruct G as (G1 & G2 & G3 & G4 & G5 & G6 & G7 & G8 & G9).
        exists ([if s_cap s =? 0 then EAlloc (s_ptr s1) (storage_bytes t chk (s_cap s1)) (sp_align t)
                 else ERealloc (s_ptr s) (storage_bytes t chk (s_cap s)) (sp_align t) (s_ptr s1) (storage_bytes t chk (s_cap s1))]
                ++ fst (irun t i)).
        split; [rewrite El, G9, <- app_assoc; reflexivity|]. split; [lia|]. intros _. left.
        split; [rewrite Ec, Es; reflexivity|]. rewrite requests_app, requested_app, Hri, (requests_0 _ Hri), Ec.
        destruct (s_cap s =? 0); cbn [requests requested]; lia. }
    destruct (snd (irun t i)) as [v|].
    + destruct HP as (w' & -> & U & _). apply Hgen; auto.
    + destruct HP as (w' & -> & U). apply Hgen; auto.
Qed.

(** Amortised cost of a successful extend. *)
Definition min_cap (t : vty) : N := (32 + sp_align t - 1) / sp_align t.
Definition byte_cost (t : vty) (chk : bool) : N := sp_align t + (if chk then 1 else 0).
Lemma storage_cost t chk c : storage_bytes t chk c <= c * byte_cost t chk.
Proof. unfold storage_bytes, byte_cost, bitmap_bytes. destruct chk; [|lia]. pose proof (N.div_mod (c + 7) 8 ltac:(lia)). destruct (N.eq_dec c 0) as [->|]; [cbn; lia|]. nia. Qed.
Lemma extend_cost t chk is_ : wf_ty t -> nonzst t -> forall w s vs w' s',
  wf_blocks (w_blocks w) -> seq_at w t chk s vs -> inits_ready w t chk s is_ ->
  seq_extend t chk is_ (w, s) = Ok tt (w', s') ->
  exists evs, w_log w' = w_log w ++ evs /\
    requested evs + 2 * s_cap s * byte_cost t chk <= 2 * s_cap s' * byte_cost t chk /\
    s_cap s <= s_cap s' /\ s_cap s' <= N.max (s_cap s) (N.max (2 * s_occ s') (min_cap t)) /\ s_occ s <= s_occ s'.
Proof.
  intros Hwf Hz. unfold seq_extend. induction is_ as [|i is_ IH]; intros w s vs w' s' Hbl Hat Hr E; cbn [for_each] in E.
  - injection E as <- <-. exists []. rewrite app_nil_r. cbn. split; [reflexivity|]. lia.
  - pose proof (push_inv_ok t chk w s i vs Hwf Hz Hbl Hat (inits_head _ _ _ _ _ _ Hr)) as HP.
    pose proof (push_growth t chk w s i vs Hwf Hz Hbl Hat (inits_head _ _ _ _ _ _ Hr)) as HG. unfold bind in E.
    destruct (seq_push t chk i (w, s)) as [u [w1 s1]|[w1 s1]|]; [|discriminate|contradiction].
    destruct HP as (v & Ev & HP). pose proof HP as (P1 & P2 & _).
    pose proof (inits_tail t chk w s i is_ vs _ w1 s1 Hwf Hbl Hat HP Hr) as Hr1.
    destruct (IH w1 s1 (vs ++ [v]) w' s' P2 P1 Hr1 E) as (evs2 & L2 & C2 & D2 & F2 & O2).
    destruct HG as (evs1 & L1 & G1 & G2). exists (evs1 ++ evs2). split; [rewrite L2, L1, app_assoc; reflexivity|].
    rewrite requested_app.
    assert (Hocc : s_occ s1 = s_occ s + icells t i).
    { destruct P1 as (_ & -> & _). destruct Hat as (_ & -> & _). rewrite total_app. cbn [total].
      pose proof (inits_head _ _ _ _ _ _ Hr) as (Hi & _).
      destruct (proj1 ival_ok_all t Hwf i v Hi Ev) as [_ Hsh]. unfold cells, icells, vsize, isize. rewrite Hsh. lia. }
    destruct (N.leb_spec (s_occ s + icells t i) (s_cap s)) as [Hle|Hgt].
    + destruct (G1 Hle) as (A & B & C & D). rewrite (requests_0 _ C). rewrite A in *. split; [lia|]. split; [lia|]. split; lia.
    + destruct (G2 Hgt) as [(A & B & C)|(A & _)]; [|discriminate].
      pose proof (new_cap_ge t (s_occ s + icells t i) (s_cap s)) as [N1 N2]. rewrite <- A in N1, N2.
      pose proof (storage_cost t chk (s_cap s1)) as Hst.
      assert (Hub : s_cap s1 <= N.max (2 * s_occ s1) (min_cap t)).
      { rewrite A, Hocc. unfold new_cap. fold (min_cap t). lia. }
      split; [|split; [lia|split; [lia|lia]]]. rewrite C. nia.
Qed.
