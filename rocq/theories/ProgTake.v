(** ProgTake.v - client code that runs the iterator of take_elems by hand. *)
From Verif Require Export ProgEval.

(** The elements still in the iterator, and those taken out and still held: objects at increasing
    addresses, all below the iterator's position. *)
Definition holds (w : world) (t : vty) (lo : N) (it : iter) (oa : option N) (ov : option vval) : Prop :=
  match oa, ov with
  | Some a, Some v => obj_at w t a v /\ lo <= a /\ a + vsize t v <= it_ptr it
  | None, None => True
  | _, _ => False
  end.
Definition taken (w : world) (t : vty) (lo hi : N) (it : iter) (rest : list vval) (l : list (option N)) (hd : list (option vval)) : Prop :=
  iter_at w t it rest /\ lo <= it_ptr it /\ it_ptr it + total t rest * sp_align t <= hi /\
  Forall2 (holds w t lo it) l hd /\
  (forall i j a b v, (i < j)%nat -> nth_error l i = Some (Some a) -> nth_error hd i = Some (Some v) -> nth_error l j = Some (Some b) ->
     a + vsize t v <= b).
Definition took (w w' : world) (lo hi : N) (d : list (list cell)) : Prop :=
  w_blocks w' = w_blocks w /\ same_outside (w_mem w) (w_mem w') lo (hi - lo) /\
  exists evs, w_log w' = w_log w ++ evs /\ evs = map EDrop d.
Lemma took_refl w lo hi : took w w lo hi [].
Proof. split; [reflexivity|]. split; [intros x _; reflexivity|]. exists []. now rewrite app_nil_r. Qed.
Lemma took_trans w w1 w2 lo hi d1 d2 : took w w1 lo hi d1 -> took w1 w2 lo hi d2 -> took w w2 lo hi (d1 ++ d2).
Proof.
  intros (A1 & A2 & e1 & A3 & A4) (B1 & B2 & e2 & B3 & B4). split; [congruence|]. split.
  - intros x Hx. now rewrite B2, A2.
  - exists (e1 ++ e2). rewrite B3, A3, app_assoc, map_app, A4, B4. auto.
Qed.
Lemma took_log w lo hi l : took w (add_log w (map EDrop l)) lo hi l.
Proof. split; [reflexivity|]. split; [intros x _; reflexivity|]. exists (map EDrop l). split; reflexivity. Qed.

Lemma F2_nth {A B} (R : A -> B -> Prop) l l' j y : Forall2 R l l' -> nth_error l' j = Some y -> exists x, nth_error l j = Some x /\ R x y.
Proof.
  intros H. revert j. induction H as [|a b l l' Hab H IH]; intros [|j] Hj; cbn in *; try discriminate; [injection Hj as <-; eauto|auto].
Qed.
Lemma F2_nth_l {A B} (R : A -> B -> Prop) l l' j x : Forall2 R l l' -> nth_error l j = Some x -> exists y, nth_error l' j = Some y /\ R x y.
Proof.
  intros H. revert j. induction H as [|a b l l' Hab H IH]; intros [|j] Hj; cbn in *; try discriminate; [injection Hj as <-; eauto|auto].
Qed.
Lemma F2_of_nth {A B} (R : A -> B -> Prop) l l' : length l = length l' ->
  (forall j x y, nth_error l j = Some x -> nth_error l' j = Some y -> R x y) -> Forall2 R l l'.
Proof.
  revert l'. induction l as [|a l IH]; intros [|b l'] Hl H; cbn in Hl; try discriminate; constructor.
  - apply (H 0%nat); reflexivity.
  - apply IH; [congruence|]. intros j. apply (H (S j)).
Qed.
Lemma nth_replace {A} (l : list A) i x j :
  nth_error (replace_nth l i x) j = if Nat.eq_dec i j then option_map (fun _ => x) (nth_error l j) else nth_error l j.
Proof. rewrite <- update_replace. apply nth_update. Qed.
(** The environment changes only inside the held element number [j], which is replaced by a value of
    the same size. *)
Lemma taken_put w w' t lo hi it rest l hd j a v v' :
  wf_ty t -> taken w t lo hi it rest l hd -> nth_error l j = Some (Some a) -> nth_error hd j = Some (Some v) ->
  w_blocks w' = w_blocks w -> same_outside (w_mem w) (w_mem w') a (vsize t v) -> obj_at w' t a v' -> vsize t v' = vsize t v ->
  taken w' t lo hi it rest l (replace_nth hd j (Some v')).
Proof.
  intros Hwf (Hit & Hlo & Hhi & HF & Hord) Hl Hh Hb Hm Ho Hsz.
  destruct (F2_nth_l _ _ _ _ _ HF Hl) as (y & Hy & Hhold). rewrite Hh in Hy. injection Hy as <-. cbn [holds] in Hhold. destruct Hhold as (_ & Ha1 & Ha2).
  pose proof Hit as (I1 & I2 & I3).
  split; [split; [exact I1|split; [exact I2|]]|split; [exact Hlo|split; [exact Hhi|split]]].
  - apply (objs_range w); auto; [|intros; now rewrite Hb]. intros x Hx. apply Hm. lia.
  - apply F2_of_nth.
    { rewrite <- update_replace, update_length. now apply Forall2_len in HF. }
    intros k x y Hx Hy. rewrite nth_replace in Hy. destruct (Nat.eq_dec j k) as [<-|Hne].
    + rewrite Hh in Hy. cbn in Hy. injection Hy as <-. rewrite Hl in Hx. injection Hx as <-. cbn [holds]. rewrite Hsz. auto.
    + destruct (F2_nth_l _ _ _ _ _ HF Hx) as (y' & Hy' & H). rewrite Hy in Hy'. injection Hy' as <-.
      destruct x as [b|], y as [u|]; cbn [holds] in *; auto. destruct H as (H1 & H2 & H3). split; [|auto].
      apply (obj_frame w w' t b u a (vsize t v)); auto; [|rewrite Hb; apply H1].
      unfold apart. destruct (Nat.lt_ge_cases j k) as [Hlt|Hge].
      * pose proof (Hord j k a b v Hlt Hl Hh Hx). lia.
      * assert (Hlt : (k < j)%nat) by lia. pose proof (Hord k j b a u Hlt Hx Hy Hl). lia.
  - intros i k x y u Hik Hx Hu Hy. rewrite nth_replace in Hu. destruct (Nat.eq_dec j i) as [<-|Hne]; [|eapply Hord; eauto].
    rewrite Hh in Hu. cbn in Hu. injection Hu as <-. rewrite Hsz. eapply Hord; eauto.
Qed.
Lemma taken_drop w t lo hi it rest l hd j :
  taken w t lo hi it rest l hd -> taken w t lo hi it rest (update l j None) (replace_nth hd j None).
Proof.
  intros (Hit & Hlo & Hhi & HF & Hord). split; [exact Hit|]. split; [exact Hlo|]. split; [exact Hhi|]. split.
  - apply F2_of_nth; [change (@replace_nth (option vval)) with (@update (option vval)); rewrite !update_length; now apply Forall2_len in HF|].
    intros k x y. rewrite nth_update, nth_replace. destruct (Nat.eq_dec j k) as [<-|Hne].
    + destruct (nth_error l j), (nth_error hd j); cbn; try discriminate. intros E1 E2. injection E1 as <-. injection E2 as <-. exact I.
    + intros Hx Hy. destruct (F2_nth_l _ _ _ _ _ HF Hx) as (y' & Hy' & H). congruence.
  - intros i k a b v Hik Ha Hv Hb. rewrite nth_update in Ha, Hb. rewrite nth_replace in Hv.
    destruct (Nat.eq_dec j i), (Nat.eq_dec j k); subst.
    + destruct (nth_error l k); discriminate.
    + destruct (nth_error l i); discriminate.
    + destruct (nth_error l k); discriminate.
    + eapply Hord; eauto.
Qed.
Lemma taken_log w t lo hi it rest l hd e : taken w t lo hi it rest l hd -> taken (add_log w e) t lo hi it rest l hd.
Proof.
  intros (Hit & Hlo & Hhi & HF & Hord). split; [now apply iter_log|]. repeat (split; [assumption|]). exact Hord.
Qed.
Lemma taken_next w t lo hi it v rest l hd : wf_ty t -> taken w t lo hi it (v :: rest) l hd ->
  exists it', iter_next t it w = Ok (Some (it_ptr it), it') w /\ taken w t lo hi it' rest (l ++ [Some (it_ptr it)]) (hd ++ [Some v]).
Proof.
  intros Hwf (Hit & Hlo & Hhi & HF & Hord). destruct (iter_next_cons w t it v rest Hwf Hit) as (it' & E & Hit' & Ei).
  exists it'. split; [exact E|]. pose proof (cells_ge t v Hwf) as Hc. cbn [total] in Hhi.
  assert (Ep : it_ptr it' = it_ptr it + cells t v * sp_align t) by (rewrite Ei; reflexivity).
  split; [exact Hit'|]. split; [lia|]. split; [rewrite Ep; unfold cells in *; nia|].
  pose proof (Forall2_len _ _ _ HF) as Hlen. split.
  - apply Forall2_app.
    + clear -HF Ep. induction HF as [|x y l hd H _ IH]; constructor; auto. destruct x, y; cbn [holds] in *; auto. destruct H as (A & B & C). repeat split; auto; try apply A. lia.
    + constructor; [|constructor]. cbn [holds]. destruct Hit as (_ & _ & [Ho _]). split; [exact Ho|]. split; [exact Hlo|]. rewrite Ep. unfold cells in *. lia.
  - intros i j a b u Hij Ha Hu Hb. rewrite nth_snoc in Ha. rewrite nth_snoc in Hb. rewrite nth_snoc in Hu.
    destruct (Nat.eq_dec i (length l)) as [->|Hi].
    + destruct (Nat.eq_dec j (length l)); [lia|]. assert (j < length l)%nat by (apply nth_error_Some; congruence). lia.
    + destruct (Nat.eq_dec i (length hd)); [congruence|]. destruct (Nat.eq_dec j (length l)) as [->|Hj]; [|eapply Hord; eauto].
      injection Hb as <-. destruct (F2_nth_l _ _ _ _ _ HF Ha) as (y & Hy & H). rewrite Hu in Hy. injection Hy as <-. cbn [holds] in H. apply H.
Qed.

(** Running the commands. *)
Definition take_res (t : vty) (lo hi : N) (w : world) (r : res (world * tstate) (list out)) (e : tres) : Prop :=
  match r, e with
  | Ok outs (w', (it', l')), TDone outs' rest' hd' d => outs = outs' /\ taken w' t lo hi it' rest' l' hd' /\ took w w' lo hi d
  | Panic (w', (it', l')), TPanic rest' hd' d => taken w' t lo hi it' rest' l' hd' /\ took w w' lo hi d
  | _, TBad => True
  | _, _ => False
  end.
Lemma then_take t lo hi w w1 o d1 m s1 e :
  took w w1 lo hi d1 -> take_res t lo hi w1 (m s1) e ->
  take_res t lo hi w ((ys <- m ;; ret (o :: ys)) s1) (then_t o d1 e).
Proof.
  intros Ht H. unfold bind. destruct (m s1) as [ys [w2 [it2 l2]]|[w2 [it2 l2]]|u]; destruct e as [outs rest hd d|rest hd d|]; cbn [take_res then_t] in *; try contradiction; auto.
  - destruct H as (-> & H1 & H2). cbn [ret take_res]. split; [reflexivity|]. split; [exact H1|]. eapply took_trans; eauto.
  - destruct H as (H1 & H2). split; [exact H1|]. eapply took_trans; eauto.
Qed.
Lemma lft_t_ok {A} (m : M world A) w s a w' : m w = Ok a w' -> lft_t m (w, s) = Ok a (w', s).
Proof. intros E. cbn. now rewrite E. Qed.
Lemma held_at_ok w (s : tstate) j a : nth_error (snd s) j = Some (Some a) -> held_at j (w, s) = Ok a (w, s).
Proof. intros E. cbn. now rewrite E. Qed.
Lemma take_cmds_ok t lo hi : wf_ty t -> forall cmds w it rest l hd,
  taken w t lo hi it rest l hd -> take_res t lo hi w (mapM (take_cmd t) cmds (w, (it, l))) (take_eval t cmds rest hd).
Proof.
  intros Hwf. induction cmds as [|c cmds IH]; intros w it rest l hd HT.
  - cbn [mapM take_eval take_res ret]. split; [reflexivity|]. split; [exact HT|apply took_refl].
  - pose proof HT as (Hit & Hlo & Hhi & HF & Hord).
    assert (Hheld : forall j v, nth_error hd j = Some (Some v) -> exists a, nth_error l j = Some (Some a) /\ obj_at w t a v /\ lo <= a /\ a + vsize t v <= it_ptr it).
    { intros j v Hj. destruct (F2_nth _ _ _ _ _ HF Hj) as (x & Hx & H). destruct x as [a|]; [|contradiction]. exists a. auto. }
    destruct c as [| |j|j q new|j|j]; cbn [mapM take_eval].
    + destruct rest as [|v rest].
      * assert (E : take_cmd t TNext (w, (it, l)) = Ok (OutBool false) (w, (it, l))) by (cbn [take_cmd]; now rewrite (iter_next_nil w t it Hit)).
        rewrite (bind_ok _ _ _ _ _ E). apply (then_take t lo hi w w); [apply took_refl|auto].
      * destruct (taken_next w t lo hi it v rest l hd Hwf HT) as (it' & En & HT').
        assert (E : take_cmd t TNext (w, (it, l)) = Ok (OutBool true) (w, (it', l ++ [Some (it_ptr it)]))) by (cbn [take_cmd]; now rewrite En).
        rewrite (bind_ok _ _ _ _ _ E). apply (then_take t lo hi w w); [apply took_refl|auto].
    + assert (E : take_cmd t TLen (w, (it, l)) = Ok (OutNum (len rest)) (w, (it, l))) by (cbn [take_cmd]; unfold iter_len; now rewrite (proj1 Hit)).
      rewrite (bind_ok _ _ _ _ _ E). apply (then_take t lo hi w w); [apply took_refl|auto].
    + destruct (nth_error hd j) as [[v|]|] eqn:Ej; try (cbn [take_res]; destruct (bind _ _ _) as [? [? [? ?]]|[? [? ?]]|]; exact I).
      destruct (Hheld j v Ej) as (a & Ha & Ho & _).
      assert (E : take_cmd t (TRead j) (w, (it, l)) = Ok (OutVal v) (w, (it, l))).
      { cbn [take_cmd]. step (held_at_ok w (it, l) j a Ha). rewrite (bind_ok _ _ _ _ _ (lft_t_ok _ _ (it, l) _ _ (deref_ok t w a v Hwf Ho))).
        now rewrite (bind_ok _ _ _ _ _ (lft_t_ok _ _ (it, l) _ _ (view_ok t w a v Hwf Ho))). }
      rewrite (bind_ok _ _ _ _ _ E). apply (then_take t lo hi w w); [apply took_refl|auto].
    + destruct (nth_error hd j) as [[v|]|] eqn:Ej; try (cbn [take_res]; destruct (bind _ _ _) as [? [? [? ?]]|[? [? ?]]|]; exact I).
      destruct (mut_leaf t q) as [f|] eqn:Eq; [|cbn [take_res]; destruct (bind _ _ _) as [? [? [? ?]]|[? [? ?]]|]; exact I].
      destruct (N.eqb_spec (len new) (f_size f)) as [Hln|]; [|cbn [take_res]; destruct (bind _ _ _) as [? [? [? ?]]|[? [? ?]]|]; exact I].
      destruct (Hheld j v Ej) as (a & Ha & Ho & La & Lb). pose proof (assign_ok t w a v q f new Hwf Ho Eq Hln) as HA.
      destruct (leaf v q) as [b|] eqn:El.
      * destruct HA as (w' & o & E1 & Hle & U & _ & Ho' & Hsh).
        assert (E : take_cmd t (TAssign j q new) (w, (it, l)) = Ok OutUnit (w', (it, l))).
        { cbn [take_cmd]. step (held_at_ok w (it, l) j a Ha). rewrite (bind_ok _ _ _ _ _ (lft_t_ok _ _ (it, l) _ _ (deref_ok t w a v Hwf Ho))).
          now rewrite (bind_ok _ _ _ _ _ (lft_t_ok _ _ (it, l) _ _ E1)). }
        pose proof (upd_blocks _ _ _ _ _ _ U) as Ub. rewrite without_nil in Ub.
        assert (Hm : same_outside (w_mem w) (w_mem w') a (vsize t v)) by (intros x Hx; apply (upd_mem _ _ _ _ _ _ U); lia).
        rewrite (bind_ok _ _ _ _ _ E). apply (then_take t lo hi w w').
        -- split; [exact Ub|]. split; [intros x Hx; apply Hm; lia|]. exists (drop_events f [b]). split; [apply (upd_log_eq _ _ _ _ _ _ U)|].
           unfold drop_events; destruct (f_drop f); reflexivity.
        -- apply IH. eapply (taken_put w w' t lo hi it rest l hd j a v); eauto. unfold vsize. now rewrite Hsh.
      * assert (E : take_cmd t (TAssign j q new) (w, (it, l)) = Panic (w, (it, l))).
        { cbn [take_cmd]. step (held_at_ok w (it, l) j a Ha). rewrite (bind_ok _ _ _ _ _ (lft_t_ok _ _ (it, l) _ _ (deref_ok t w a v Hwf Ho))).
          unfold bind, lft_t. rewrite HA. reflexivity. }
        rewrite (bind_panic _ _ _ _ E). cbn [take_res]. split; [exact HT|apply took_refl].
    + destruct (nth_error hd j) as [[v|]|] eqn:Ej; try (cbn [take_res]; destruct (bind _ _ _) as [? [? [? ?]]|[? [? ?]]|]; exact I).
      destruct (Hheld j v Ej) as (a & Ha & Ho & La & Lb). set (w' := add_log w (map EDrop (vdrops t v))).
      assert (E : take_cmd t (TDrop j) (w, (it, l)) = Ok OutUnit (w', (it, update l j None))).
      { cbn [take_cmd]. step (held_at_ok w (it, l) j a Ha). rewrite (bind_ok (let_go j) _ (w, (it, l)) tt (w, (it, update l j None)) eq_refl).
        rewrite (bind_ok _ _ _ _ _ (lft_t_ok _ _ (it, update l j None) _ _ (owned_drop_ok t w a v Hwf Ho))). reflexivity. }
      rewrite (bind_ok _ _ _ _ _ E). apply (then_take t lo hi w w'); [apply took_log|]. apply IH. apply taken_drop, taken_log, HT.
    + destruct (nth_error hd j) as [[v|]|] eqn:Ej; try (cbn [take_res]; destruct (bind _ _ _) as [? [? [? ?]]|[? [? ?]]|]; exact I).
      assert (E : take_cmd t (TForget j) (w, (it, l)) = Ok OutUnit (w, (it, update l j None))) by reflexivity.
      rewrite (bind_ok _ _ _ _ _ E). apply (then_take t lo hi w w); [apply took_refl|]. apply IH. apply taken_drop, HT.
Qed.
Lemma take_end_ok t lo hi keep w it rest l hd : wf_ty t -> taken w t lo hi it rest l hd ->
  exists w', take_end t keep (it, l) w = Ok tt w' /\ took w w' lo hi (hd_drops t hd ++ if keep then [] else concat (map (vdrops t) rest)).
Proof.
  intros Hwf (Hit & Hlo & Hhi & HF & _). unfold take_end. cbn [fst snd].
  assert (G : exists w1, for_each (fun o => match o with Some a => owned_drop t a | None => ret tt end) l w = Ok tt w1 /\ w1 = add_log w (map EDrop (hd_drops t hd))).
  { clear Hit Hlo Hhi. revert w hd HF. unfold hd_drops. induction l as [|x l IH]; intros w hd HF; inversion HF as [|? y ? hd' H HF']; subst.
    - exists w. split; [reflexivity|]. cbn. unfold add_log. rewrite app_nil_r. now destruct w.
    - cbn [for_each map concat]. destruct x as [a|], y as [v|]; cbn [holds] in H; try contradiction.
      + rewrite (bind_ok _ _ _ _ _ (owned_drop_ok t w a v Hwf (proj1 H))). destruct (IH (add_log w (map EDrop (vdrops t v))) hd') as (w1 & E & ->).
        * clear -HF'. induction HF' as [|x y l hd H _ IH]; constructor; auto.
        * eexists. split; [exact E|]. unfold add_log; cbn. now rewrite map_app, app_assoc.
      + rewrite (bind_ok (ret tt) _ w tt w eq_refl). destruct (IH w hd' HF') as (w1 & E & ->). eexists. split; [exact E|]. reflexivity. }
  destruct G as (w1 & E & ->). rewrite (bind_ok _ _ _ _ _ E). destruct keep.
  - eexists. split; [reflexivity|]. rewrite app_nil_r. apply took_log.
  - rewrite (owned_elems_drop_ok _ t it rest Hwf (iter_log _ _ _ _ _ Hit)). eexists. split; [reflexivity|].
    eapply took_trans; [apply took_log|apply took_log].
Qed.
