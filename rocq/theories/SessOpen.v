(** SessOpen.v - the begin and the end of the borrow of a sequence by take_elems (C59). *)
From Verif Require Export SessSteps.

(** ** blocks *)
Lemma wf_cons bl b : wf_blocks bl -> b_base b <> 0 -> 0 < b_size b -> b_base b + b_size b < W -> (forall c, In c bl -> blocks_apart b c) -> wf_blocks (b :: bl).
Proof.
  intros [H1 H2] A B C D. split; [intros c [<-|Hc]; auto|]. constructor; [|exact H2]. apply Forall_forall. exact D.
Qed.
Lemma wf_filter f bl : wf_blocks bl -> wf_blocks (filter f bl).
Proof.
  intros [H1 H2]. split; [intros b Hb; apply filter_In in Hb; apply H1, Hb|]. induction H2 as [|b l Hf Hp IH]; cbn [filter]; [constructor|].
  assert (H1' : forall b, In b l -> b_base b <> 0 /\ 0 < b_size b /\ b_base b + b_size b < W) by (intros c Hc; apply H1; right; exact Hc).
  destruct (f b); [|auto]. constructor; [|auto]. rewrite Forall_forall in *. intros c Hc. apply filter_In in Hc. apply Hf, Hc.
Qed.
Definition in_parts (b : block) (tiles : list block) : Prop :=
  forall c, In c tiles -> b_heap c = false /\ b_base b <= b_base c /\ b_base c + b_size c <= b_base b + b_size b.
Lemma divided_real G bl blv b : divided G bl blv -> In b blv -> b_heap b = true -> In b bl /\ ~ In b (map fst G).
Proof.
  intros [Hd Hg] Hb Hh. apply Hd in Hb. destruct Hb as [Hk|(g & Hg1 & Hc)]; [exact Hk|]. destruct (proj2 (Hg g Hg1) b Hc). congruence.
Qed.
Lemma divided_split G bl blv blv' b tiles : divided G bl blv -> In b blv -> b_heap b = true -> in_parts b tiles ->
  (forall c, In c blv' <-> In c tiles \/ (In c blv /\ c <> b)) -> divided (G ++ [(b, tiles)]) bl blv'.
Proof.
  intros Hdv Hb Hh Ht Hn. pose proof (divided_real _ _ _ _ Hdv Hb Hh) as [Hbl Hng]. destruct Hdv as [Hd Hg]. split.
  - intros c. rewrite Hn, Hd. unfold kept. rewrite map_app. setoid_rewrite in_app_iff. cbn [map fst In]. split.
    + intros [H|[[[H1 H2]|(g & H1 & H2)] H3]].
      * right. exists (b, tiles). auto.
      * left. split; [exact H1|]. intros [X|[X|[]]]; [auto|congruence].
      * right. exists g. auto.
    + intros [[H1 H2]|(g & [H1|[<-|[]]] & H2)].
      * right. split; [left; split; [exact H1|intros X; apply H2; left; exact X]|]. intros ->. apply H2. right. left. reflexivity.
      * right. split; [right; eauto|]. intros ->. destruct (proj2 (Hg g H1) b H2). congruence.
      * auto.
  - intros g Hg1. apply in_app_or in Hg1. destruct Hg1 as [Hg1|[<-|[]]]; [apply Hg, Hg1|]. split; [exact Hbl|exact Ht].
Qed.
(** Parts of different blocks are different. *)
Lemma part_of_one G bl blv g g' c : wf_blocks bl -> wf_blocks blv -> divided G bl blv -> In g G -> In g' G -> In c (snd g) -> In c (snd g') -> fst g = fst g'.
Proof.
  intros Hw Hwv [Hd Hg] Hg1 Hg2 Hc Hc'. destruct (Hg g Hg1) as [A1 A2], (Hg g' Hg2) as [B1 B2]. destruct (A2 c Hc) as (_ & C1 & C2), (B2 c Hc') as (_ & D1 & D2).
  assert (Hcv : In c blv) by (apply Hd; right; eauto). pose proof (wf_block_in _ _ Hwv Hcv) as (_ & Hpos & _).
  destruct (block_dec (fst g) (fst g')) as [E|E]; [exact E|exfalso].
  assert (Hb : b_base (fst g) <> b_base (fst g')) by (intros X; apply E; exact (wf_same_base bl _ _ Hw A1 B1 X)).
  pose proof (wf_blocks_disj _ _ _ Hw A1 B1 Hb) as Hap. unfold blocks_apart in Hap. lia.
Qed.
Lemma divided_merge G G' bl blv blv' b tiles : wf_blocks bl -> wf_blocks blv -> divided G bl blv -> NoDup (map fst G) -> In (b, tiles) G ->
  (forall g, In g G' <-> In g G /\ fst g <> b) -> (forall c, In c blv' <-> c = b \/ (In c blv /\ ~ In c tiles)) -> divided G' bl blv'.
Proof.
  intros Hw Hwv Hdv Hnd Hin HG' Hn. pose proof Hdv as [Hd Hg].
  assert (Huniq : forall g, In g G -> fst g = b -> g = (b, tiles)).
  { intros [b' l] Hg1 E. cbn [fst] in E. subst b'. f_equal. clear -Hnd Hin Hg1. induction G as [|[y m] G IH]; [contradiction|]. cbn [map fst] in Hnd. inversion Hnd; subst.
    destruct Hin as [E|Hin], Hg1 as [E1|Hg1]; [congruence| | |auto]; exfalso; apply H1.
    - injection E as -> _. apply in_map_iff. exists (b, l). auto.
    - injection E1 as -> _. apply in_map_iff. exists (b, tiles). auto. }
  split.
  - intros c. rewrite Hn. split.
    + intros [->|[Hc Hnt]].
      * left. split; [apply (Hg _ Hin)|]. intros X. apply in_map_iff in X. destruct X as (g & E & X). apply HG' in X. tauto.
      * apply Hd in Hc. destruct Hc as [[H1 H2]|(g & H1 & H2)].
        -- left. split; [exact H1|]. intros X. apply in_map_iff in X. destruct X as (g & E & X). apply HG' in X. apply H2. apply in_map_iff. exists g. tauto.
        -- right. exists g. split; [|exact H2]. apply HG'. split; [exact H1|]. intros E. rewrite (Huniq g H1 E) in H2. contradiction.
    + intros [[H1 H2]|(g & H1 & H2)].
      * destruct (block_dec c b) as [->|Hne]; [auto|]. right.
        assert (Hk : In c blv).
        { apply Hd. left. split; [exact H1|]. intros X. apply in_map_iff in X. destruct X as (g & E & X). apply H2. apply in_map_iff. exists g. split; [exact E|]. apply HG'. split; [exact X|congruence]. }
        split; [exact Hk|]. intros X. destruct (proj2 (Hg _ Hin) c X) as (_ & C1 & C2). cbn [fst] in *.
        pose proof (wf_block_in _ _ Hw H1) as (_ & Hpos & _). destruct (Hg _ Hin) as [Hb _]. cbn [fst] in Hb.
        assert (Hbb : b_base c <> b_base b) by (intros Y; apply Hne; exact (wf_same_base bl _ _ Hw H1 Hb Y)).
        pose proof (wf_blocks_disj _ _ _ Hw H1 Hb Hbb) as Hap. unfold blocks_apart in Hap. lia.
      * apply HG' in H1. destruct H1 as [H1 Hne]. right. split; [apply Hd; right; eauto|]. intros X. apply Hne.
        exact (part_of_one G bl blv g (b, tiles) c Hw Hwv Hdv H1 Hin H2 X).
  - intros g Hg1. apply HG' in Hg1. apply Hg, Hg1.
Qed.

(** ** elements as values of their own *)
Fixpoint owns (t : vty) (a : N) (vs : list vval) : list slot :=
  match vs with [] => [] | v :: r => SOwn t a :: owns t (a + cells t v * sp_align t) r end.
Fixpoint tiles_of (t : vty) (a : N) (vs : list vval) : list block :=
  match vs with [] => [] | v :: r => own_block t a v :: tiles_of t (a + cells t v * sp_align t) r end.
Fixpoint add_tiles (t : vty) (a : N) (vs : list vval) (bl : list block) : list block :=
  match vs with [] => bl | v :: r => add_tiles t (a + cells t v * sp_align t) r (own_block t a v :: bl) end.
Lemma in_add_tiles t c : forall vs a bl, In c (add_tiles t a vs bl) <-> In c (tiles_of t a vs) \/ In c bl.
Proof.
  induction vs as [|v vs IH]; intros a bl; cbn [add_tiles tiles_of In]; [tauto|]. rewrite IH. cbn [In]. tauto.
Qed.
Lemma owns_length t : forall vs a, length (owns t a vs) = length vs.
Proof. induction vs; intros; cbn; auto. Qed.
Lemma inv_elems t n : wf_ty t -> nonzst t -> forall vs a w sl σ, Inv w sl σ n -> a <> 0 -> a mod sp_align t = 0 ->
  a + total t vs * sp_align t < W -> elems_at (w_mem w) t a vs ->
  (forall b, In b (w_blocks w) -> b_base b + b_size b <= a \/ a + total t vs * sp_align t <= b_base b) ->
  Inv (set_blocks w (add_tiles t a vs (w_blocks w))) (sl ++ owns t a vs) (σ ++ map (AOwn t) vs) n.
Proof.
  intros Hwf Hz. pose proof (sp_align_pos t Hwf) as Hp. induction vs as [|v vs IH]; intros a w sl σ HI Ha0 Ham HW He Hap; cbn [add_tiles owns map].
  - rewrite !app_nil_r. eapply inv_world; [exact HI|reflexivity|reflexivity].
  - cbn [elems_at total] in *. destruct He as (Hv & Hr & He). pose proof (cells_ge t v Hwf) as Hc. pose proof (Hz v Hv) as Hpos.
    set (w1 := set_blocks w (own_block t a v :: w_blocks w)).
    assert (HI1 : Inv w1 (sl ++ [SOwn t a]) (σ ++ [AOwn t v]) n).
    { pose proof HI as (Hbl & _).
      apply (inv_create w sl σ n w1 [] [] (SOwn t a) (AOwn t v) HI (Forall2_nil _)).
      - apply wf_cons; [exact Hbl|exact Ha0|exact Hpos|cbn [own_block b_base b_size]; nia|].
        intros c Hin. unfold blocks_apart. cbn [own_block b_base b_size]. destruct (Hap c Hin); nia.
      - intros b Hin _. split; [right; exact Hin|reflexivity].
      - cbn [rep]. split; [reflexivity|]. split; [exact Hwf|]. split; [|].
        + split; [exact Hv|]. split; [|exact Hr]. split; [exact Ha0|]. split; [exact Ham|]. split; [nia|]. right. exists (own_block t a v). split; [left; reflexivity|]. cbn. lia.
        + cbn [hblocks]. destruct (vsize t v =? 0); intros b Hb; [contradiction|]. destruct Hb as [<-|[]]. left. reflexivity.
      - unfold hbases. cbn [hblocks]. destruct (vsize t v =? 0); intros x Hx; [contradiction|]. destruct Hx as [<-|[]]. intros b Hin E. cbn [own_block b_base] in E.
        pose proof (wf_block_in _ _ Hbl Hin) as (_ & Hbs & _). destruct (Hap b Hin); nia.
      - intros b [<-|Hin] Hh; [discriminate|]. right. split; [exact Hin|]. intros []. }
    specialize (IH (a + cells t v * sp_align t) w1 (sl ++ [SOwn t a]) (σ ++ [AOwn t v]) HI1).
    rewrite <- !app_assoc in IH. cbn [app] in IH. apply IH; clear IH.
    + lia.
    + rewrite N.mod_add by lia. exact Ham.
    + nia.
    + exact He.
    + intros b [<-|Hin]; [left; cbn [own_block b_base b_size]; lia|]. destruct (Hap b Hin); [left; lia|right; nia].
Qed.
Lemma pending_new t : forall vs a sl σ, length sl = length σ ->
  pending (sl ++ owns t a vs) (σ ++ map (AOwn t) vs) t a (combine (seq (length sl) (length vs)) vs).
Proof.
  induction vs as [|v vs IH]; intros a sl σ Hl; cbn [owns map length seq combine pending]; [exact I|]. split.
  - split; [rewrite nth_error_app2, Nat.sub_diag by lia; reflexivity|]. rewrite Hl, nth_error_app2, Nat.sub_diag by lia. reflexivity.
  - specialize (IH (a + cells t v * sp_align t) (sl ++ [SOwn t a]) (σ ++ [AOwn t v])). rewrite <- !app_assoc in IH. cbn [app] in IH.
    rewrite !app_length in IH. cbn [length] in IH. rewrite Nat.add_1_r in IH. apply IH. lia.
Qed.
Lemma at_h_new t (sl : list slot) (σ : list aval) : length sl = length σ -> forall vs a h s v, at_h (sl ++ owns t a vs) (σ ++ map (AOwn t) vs) h s v ->
  at_h sl σ h s v \/ ((length sl <= h < length sl + length vs)%nat /\ exists p, s = SOwn t p /\ forall b, In b (hblocks s v) -> In b (tiles_of t a vs)).
Proof.
  intros Hl vs a h s v [A B]. destruct (Nat.lt_ge_cases h (length sl)) as [Hlt|Hge].
  - left. split; [now rewrite nth_error_app1 in A by lia|now rewrite nth_error_app1 in B by lia].
  - right. rewrite nth_error_app2 in A by lia. rewrite nth_error_app2 in B by lia. rewrite <- Hl in B.
    assert (Hlt : (h - length sl < length vs)%nat) by (rewrite <- (owns_length t vs a); apply nth_error_Some; congruence). split; [lia|].
    clear -A B. revert a A B. generalize (h - length sl)%nat as k. induction vs as [|u vs IH]; intros [|k] a A B; cbn in A, B; try discriminate.
    + injection A as <-. injection B as <-. exists a. split; [reflexivity|]. cbn [hblocks tiles_of]. destruct (vsize t u =? 0); intros b Hb; [contradiction|]. destruct Hb as [<-|[]]. left. reflexivity.
    + destruct (IH k _ A B) as (p & E & Hp). exists p. split; [exact E|]. intros b Hb. right. apply Hp, Hb.
Qed.
Lemma tile_owner t : wf_ty t -> nonzst t -> forall vs a (sl : list slot) (σ : list aval) m c, length sl = length σ -> elems_at m t a vs -> In c (tiles_of t a vs) ->
  exists h s v, In h (seq (length sl) (length vs)) /\ at_h (sl ++ owns t a vs) (σ ++ map (AOwn t) vs) h s v /\ In c (hblocks s v).
Proof.
  intros Hwf Hz. induction vs as [|v vs IH]; intros a sl σ m c Hl He Hc; cbn [tiles_of In] in Hc; [contradiction|]. destruct He as (Hv & _ & He). destruct Hc as [<-|Hc].
  - exists (length sl), (SOwn t a), (AOwn t v). split; [left; reflexivity|]. split.
    + split; cbn [owns map]; [rewrite nth_error_app2, Nat.sub_diag by lia; reflexivity|]. rewrite Hl, nth_error_app2, Nat.sub_diag by lia. reflexivity.
    + cbn [hblocks]. pose proof (Hz v Hv). destruct (N.eqb_spec (vsize t v) 0); [lia|]. left. reflexivity.
  - destruct (IH (a + cells t v * sp_align t) (sl ++ [SOwn t a]) (σ ++ [AOwn t v]) m c) as (h & s & u & H1 & H2 & H3); auto.
    { rewrite !app_length. cbn. lia. }
    rewrite <- !app_assoc in H2. cbn [app] in H2. exists h, s, u. split; [|split; [exact H2|exact H3]]. rewrite app_length in H1. cbn [length] in H1. rewrite Nat.add_1_r in H1. right. exact H1.
Qed.
Lemma tiles_in t : wf_ty t -> forall vs a c, In c (tiles_of t a vs) -> b_heap c = false /\ a <= b_base c /\ b_base c + b_size c <= a + total t vs * sp_align t.
Proof.
  intros Hwf. induction vs as [|v vs IH]; intros a c; cbn [tiles_of In total]; [intros []|]. pose proof (cells_ge t v Hwf). pose proof (sp_align_pos t Hwf).
  intros [<-|Hc]; [cbn [own_block b_heap b_base b_size]; split; [reflexivity|]; nia|]. destruct (IH _ _ Hc) as (H1 & H2 & H3). split; [exact H1|]. nia.
Qed.
