(** ProgInv.v - the invariant of a program's state, and how it is carried over one operation. *)
From Verif Require Export ProgSpec Ghost.

(** ** lists *)
Lemma nth_update {A} (l : list A) i x j :
  nth_error (update l i x) j = if Nat.eq_dec i j then option_map (fun _ => x) (nth_error l j) else nth_error l j.
Proof.
  revert i j. induction l as [|y l IH]; intros [|i] [|j]; cbn [update nth_error]; try reflexivity.
  - destruct (Nat.eq_dec _ _); reflexivity.
  - rewrite IH. destruct (Nat.eq_dec i j), (Nat.eq_dec (S i) (S j)); try lia; reflexivity.
Qed.
Lemma update_replace {A} (l : list A) i x : update l i x = replace_nth l i x.
Proof. revert i. induction l as [|y l IH]; intros [|i]; cbn [update replace_nth]; rewrite ?IH; reflexivity. Qed.
Lemma update_length {A} (l : list A) i x : length (update l i x) = length l.
Proof. revert i. induction l as [|y l IH]; intros [|i]; cbn [update length]; auto. Qed.
Definition kills {A} (d : A) (l : list A) (hs : list nat) : list A := fold_left (fun l h => update l h d) hs l.
Lemma kills_length {A} (d : A) hs : forall l, length (kills d l hs) = length l.
Proof. unfold kills. induction hs as [|h hs IH]; intros l; cbn [fold_left]; auto. now rewrite IH, update_length. Qed.
Lemma nth_kills {A} (d : A) hs : forall l j,
  nth_error (kills d l hs) j = if in_dec Nat.eq_dec j hs then option_map (fun _ => d) (nth_error l j) else nth_error l j.
Proof.
  unfold kills. induction hs as [|h hs IH]; intros l j; cbn [fold_left]; [reflexivity|]. rewrite IH, nth_update.
  destruct (in_dec Nat.eq_dec j hs) as [Hi|Hn], (in_dec Nat.eq_dec j (h :: hs)) as [Hi'|Hn'], (Nat.eq_dec h j) as [->|Hne]; try reflexivity;
    try (destruct (nth_error l j); reflexivity).
  - exfalso. apply Hn'. right. exact Hi.
  - exfalso. apply Hn'. right. exact Hi.
  - exfalso. destruct Hi' as [E|E]; [contradiction|contradiction].
  - exfalso. apply Hn'. left. reflexivity.
Qed.
Lemma kill_kills sl hs : kill sl hs = kills SDead sl hs.
Proof. reflexivity. Qed.
Lemma kill_vals_kills σ hs : kill_vals σ hs = kills ADead σ hs.
Proof. reflexivity. Qed.
Lemma nth_snoc {A} (l : list A) x j :
  nth_error (l ++ [x]) j = if Nat.eq_dec j (length l) then Some x else nth_error l j.
Proof.
  destruct (Nat.eq_dec j (length l)) as [->|Hn].
  - rewrite nth_error_app2, Nat.sub_diag by lia. reflexivity.
  - destruct (Nat.lt_ge_cases j (length l)) as [H|H]; [now apply nth_error_app1|].
    rewrite nth_error_app2 by lia. destruct (j - length l)%nat eqn:E; [lia|]. cbn. symmetry. destruct n; apply nth_error_None; lia.
Qed.

(** ** the values of a program and what they mean *)
Definition own_block (t : vty) (a : N) (v : vval) : block := mkB a (vsize t v) (sp_align t) false.
Definition hblocks (s : slot) (v : aval) : list block :=
  match s, v with
  | SBox t a, ABox _ x => [box_block t a x]
  | SOwn t a, AOwn _ x => if vsize t x =? 0 then [] else [own_block t a x]
  | SSeq t c s, ASeq _ _ _ _ => if s_cap s =? 0 then [] else [seq_block t c s]
  | _, _ => []
  end.
Definition hbases (s : slot) (v : aval) : list N := map b_base (hblocks s v).
Definition rep (w : world) (s : slot) (v : aval) : Prop :=
  match s, v with
  | SBox t a, ABox t' x => t = t' /\ wf_ty t /\ box_at w t a x
  | SOwn t a, AOwn t' x => t = t' /\ wf_ty t /\ obj_at w t a x /\ incl (hblocks s v) (w_blocks w)
  | SSeq t c s, ASeq t' c' vs old => (t = t' /\ c = c' /\ wf_ty t /\ nonzst t) /\ seq_at w t c s vs /\
      (c = true -> bits_within w t s vs old)
  | SDead, ADead => True
  | _, _ => False
  end.
Lemma rep_blocks w s v : rep w s v -> incl (hblocks s v) (w_blocks w).
Proof.
  destruct s as [t a|t a|t c s|], v as [t' x|t' x|t' c' vs old|]; cbn [rep hblocks]; try contradiction.
  - intros (_ & _ & _ & H) b [<-|[]]. exact H.
  - intros (_ & _ & _ & H). exact H.
  - intros (_ & (_ & _ & _ & [[[E _] _]|(B1 & B2 & _)]) & _).
    + rewrite E. intros b [].
    + destruct (s_cap s =? 0); [intros b []|]. intros b [<-|[]]. exact B2.
  - intros _ b [].
Qed.
Lemma hbases_seq t c s v : (exists vs old, v = ASeq t c vs old) -> hbases (SSeq t c s) v = seq_base s.
Proof. intros (vs & old & ->). unfold hbases, seq_base. cbn [hblocks]. destruct (s_cap s =? 0); reflexivity. Qed.
Lemma hblock_base w s v b : wf_blocks (w_blocks w) -> rep w s v -> In b (w_blocks w) -> In (b_base b) (hbases s v) -> In b (hblocks s v).
Proof.
  intros Hbl Hr Hb Hin. apply in_map_iff in Hin. destruct Hin as (c & E & Hc).
  rewrite <- (wf_same_base _ _ _ Hbl (rep_blocks _ _ _ Hr _ Hc) Hb E). exact Hc.
Qed.
(** A value whose storage is untouched stays as it is. *)
Lemma rep_frame w w' D s v :
  untouched w w' D -> rep w s v -> (forall x, In x (hbases s v) -> ~ In x D) -> rep w' s v.
Proof.
  intros Hu Hr Hd. pose proof (rep_blocks _ _ _ Hr) as Hin.
  assert (HB : forall b, In b (hblocks s v) -> In b (w_blocks w') /\ forall x, b_base b <= x < b_base b + b_size b -> w_mem w' x = w_mem w x).
  { intros b Hb. apply Hu; [now apply Hin|]. apply Hd. unfold hbases. apply in_map_iff. eauto. }
  destruct s as [t a|t a|t c s|], v as [t' x|t' x|t' c' vs old|]; cbn [rep hblocks] in *; try contradiction; auto.
  - destruct Hr as (E & Hwf & Ho). split; [exact E|]. split; [exact Hwf|].
    apply (box_env w); [exact Hwf|exact Ho|]. intros b Hb Eb. apply Hu; [exact Hb|]. rewrite Eb. apply Hd. left. reflexivity.
  - destruct Hr as (E & Hwf & Ho & _). split; [exact E|]. split; [exact Hwf|]. split; [|intros b Hb; apply HB, Hb].
    destruct Ho as (Hv & (P0 & Pm & PW & Pl) & Hrp). destruct (N.eqb_spec (vsize t x) 0) as [E0|E0].
    + split; [exact Hv|]. split; [repeat split; auto; left; exact E0|]. apply (repr_shift t (w_mem w) _ a a x); auto. intros j Hj. lia.
    + destruct (HB _ (or_introl eq_refl)) as [H1 H2]. cbn [own_block b_base b_size] in H2. split; [exact Hv|]. split.
      * repeat split; auto. right. exists (own_block t a x). split; [exact H1|]. cbn. lia.
      * apply (repr_shift t (w_mem w) _ a a x); auto. intros j Hj. apply H2. lia.
  - destruct Hr as ((-> & -> & Hwf & Hz) & Hat & Hb). split; [auto|].
    rewrite (hbases_seq t' c' s) in Hd by eauto.
    destruct (seq_at_env w w' t' c' s vs Hwf Hat) as [J1 J2].
    { intros b Hb0 Hbase. apply Hu; auto. }
    split; [exact J1|]. intros Hc. apply J2; auto.
Qed.

(** ** the invariant *)
Definition at_h (sl : list slot) (σ : list aval) (h : nat) (s : slot) (v : aval) : Prop :=
  nth_error sl h = Some s /\ nth_error σ h = Some v.
Definition Inv (w : world) (sl : list slot) (σ : list aval) (n : nat) : Prop :=
  wf_blocks (w_blocks w) /\ length sl = length σ /\
  (forall h s v, at_h sl σ h s v -> rep w s v) /\
  (forall h h' s v s' v' x, at_h sl σ h s v -> at_h sl σ h' s' v' -> In x (hbases s v) -> In x (hbases s' v') -> h = h') /\
  exists L, (length L <= n)%nat /\
    forall b, In b (w_blocks w) -> b_heap b = true -> In (b_base b) L \/ exists h s v, at_h sl σ h s v /\ In (b_base b) (hbases s v).
Lemma at_h_fun sl σ h s v s' v' : at_h sl σ h s v -> at_h sl σ h s' v' -> s = s' /\ v = v'.
Proof. intros [A B] [C D]. split; congruence. Qed.
Lemma at_h_vals w sl σ n h v : Inv w sl σ n -> nth_error σ h = Some v -> exists s, at_h sl σ h s v /\ rep w s v.
Proof.
  intros (_ & Hl & Hr & _) Hv. assert (h < length sl)%nat by (rewrite Hl; apply nth_error_Some; congruence).
  destruct (nth_error sl h) as [s|] eqn:Es; [|apply nth_error_None in Es; lia].
  exists s. assert (Ha : at_h sl σ h s v) by (split; auto). split; [exact Ha|eapply Hr, Ha].
Qed.
(** One operation: the values [D] of the old state are consumed or changed, all others keep their
    storage; at most the value number [h0] owns storage that was not owned before, or that it owned
    itself before. *)
Lemma inv_step w sl σ n w' sl' σ' n' D h0 extra :
  Inv w sl σ n -> wf_blocks (w_blocks w') -> untouched w w' D -> length sl' = length σ' ->
  (forall h s v, at_h sl' σ' h s v ->
     (at_h sl σ h s v /\ forall x, In x (hbases s v) -> ~ In x D) \/
     (rep w' s v /\ (hbases s v = [] \/
        (h = h0 /\ forall x, In x (hbases s v) ->
           (exists s0 v0, at_h sl σ h0 s0 v0 /\ In x (hbases s0 v0)) \/ (forall b, In b (w_blocks w) -> b_base b <> x))))) ->
  (n + length extra <= n')%nat ->
  (forall b, In b (w_blocks w') -> b_heap b = true ->
     In (b_base b) extra \/ (exists h s v, at_h sl' σ' h s v /\ In (b_base b) (hbases s v)) \/
     (In b (w_blocks w) /\ forall h s v, at_h sl σ h s v -> In (b_base b) (hbases s v) -> at_h sl' σ' h s v)) ->
  Inv w' sl' σ' n'.
Proof.
  intros (Hbl & Hlen & Hrep & Hdis & L & HL & Hleak) Hbl' Hu Hlen' Hst Hn Hbk.
  split; [exact Hbl'|]. split; [exact Hlen'|]. split; [|split].
  - intros h s v Ha. destruct (Hst h s v Ha) as [[Ha0 Hd]|[Hr _]]; [|exact Hr].
    eapply rep_frame; [exact Hu|eapply Hrep, Ha0|exact Hd].
  - assert (Hmix : forall h h' s v s' v' x, at_h sl' σ' h s v -> at_h sl' σ' h' s' v' -> In x (hbases s v) -> In x (hbases s' v') ->
       at_h sl σ h s v -> (rep w' s' v' /\ (hbases s' v' = [] \/
        (h' = h0 /\ forall x, In x (hbases s' v') ->
           (exists s0 v0, at_h sl σ h0 s0 v0 /\ In x (hbases s0 v0)) \/ (forall b, In b (w_blocks w) -> b_base b <> x)))) -> h = h').
    { intros h h' s v s' v' x Ha Ha' Hx Hx' Hold [_ [E|[-> Hc]]]; [rewrite E in Hx'; contradiction|].
      destruct (Hc x Hx') as [(s0 & v0 & H0 & Hx0)|Hfr].
      - eapply Hdis; [exact Hold|exact H0|exact Hx|exact Hx0].
      - exfalso. unfold hbases in Hx. apply in_map_iff in Hx. destruct Hx as (b & E & Hb).
        apply (Hfr b); [|exact E]. eapply rep_blocks; [eapply Hrep, Hold|exact Hb]. }
    intros h h' s v s' v' x Ha Ha' Hx Hx'.
    destruct (Hst h s v Ha) as [[Ho Hd]|Hnew], (Hst h' s' v' Ha') as [[Ho' Hd']|Hnew'].
    + eapply Hdis; [exact Ho|exact Ho'|exact Hx|exact Hx'].
    + eapply Hmix; [exact Ha|exact Ha'|exact Hx|exact Hx'|exact Ho|exact Hnew'].
    + symmetry. eapply Hmix; [exact Ha'|exact Ha|exact Hx'|exact Hx|exact Ho'|exact Hnew].
    + destruct Hnew as [_ [E|[-> _]]]; [rewrite E in Hx; contradiction|].
      destruct Hnew' as [_ [E|[-> _]]]; [rewrite E in Hx'; contradiction|]. reflexivity.
  - exists (extra ++ L). split; [rewrite app_length; lia|]. intros b Hb Hh.
    destruct (Hbk b Hb Hh) as [H|[H|[H1 H2]]]; [left; apply in_or_app; auto|right; exact H|].
    destruct (Hleak b H1 Hh) as [H|(h & s & v & Ha & Hx)]; [left; apply in_or_app; auto|]. right. exists h, s, v. split; [|exact Hx].
    apply H2; auto.
Qed.
(** Killing the handles [hs] in both lists. *)
Lemma at_h_kill sl σ hs h s v :
  at_h (kill sl hs) (kill_vals σ hs) h s v -> (at_h sl σ h s v /\ ~ In h hs) \/ (In h hs /\ s = SDead /\ v = ADead).
Proof.
  unfold at_h. change (kill sl hs) with (kills SDead sl hs); change (kill_vals σ hs) with (kills ADead σ hs); rewrite !nth_kills. destruct (in_dec Nat.eq_dec h hs) as [Hi|Hn]; [|tauto].
  destruct (nth_error sl h), (nth_error σ h); cbn; intros [A B]; try discriminate. right. split; [exact Hi|]. split; congruence.
Qed.
Lemma at_h_keep sl σ hs h s v : at_h sl σ h s v -> ~ In h hs -> at_h (kill sl hs) (kill_vals σ hs) h s v.
Proof.
  unfold at_h. change (kill sl hs) with (kills SDead sl hs); change (kill_vals σ hs) with (kills ADead σ hs); rewrite !nth_kills. intros H Hn. destruct (in_dec Nat.eq_dec h hs); [contradiction|exact H].
Qed.
Lemma at_h_snoc (sl : list slot) (σ : list aval) s0 v0 h s v : length sl = length σ ->
  at_h (sl ++ [s0]) (σ ++ [v0]) h s v -> at_h sl σ h s v \/ (h = length sl /\ s = s0 /\ v = v0).
Proof.
  unfold at_h. intros Hl. rewrite !nth_snoc, <- Hl. destruct (Nat.eq_dec h (length sl)); [|tauto].
  intros [A B]. right. split; [auto|]. split; congruence.
Qed.
Lemma at_h_snoc_l (sl : list slot) (σ : list aval) s0 v0 h s v : length sl = length σ -> at_h sl σ h s v -> at_h (sl ++ [s0]) (σ ++ [v0]) h s v.
Proof.
  unfold at_h. intros Hl [A B]. rewrite !nth_snoc, <- Hl.
  assert (h < length sl)%nat by (apply nth_error_Some; congruence). destruct (Nat.eq_dec h (length sl)); [lia|]. auto.
Qed.
Lemma at_h_snoc_r (sl : list slot) (σ : list aval) s0 v0 : length sl = length σ -> at_h (sl ++ [s0]) (σ ++ [v0]) (length sl) s0 v0.
Proof. unfold at_h. intros Hl. rewrite !nth_snoc, <- Hl. destruct (Nat.eq_dec _ _); [auto|lia]. Qed.
Lemma at_h_update sl σ i s0 v0 h s v :
  at_h (update sl i s0) (replace_nth σ i v0) h s v -> (at_h sl σ h s v /\ h <> i) \/ (h = i /\ s = s0 /\ v = v0).
Proof.
  unfold at_h. change (@replace_nth aval) with (@update aval); rewrite !nth_update. destruct (Nat.eq_dec i h) as [->|Hn]; [|intuition].
  destruct (nth_error sl h), (nth_error σ h); cbn; intros [A B]; try discriminate. right. split; [auto|]. split; congruence.
Qed.
Lemma at_h_update_l sl σ i s0 v0 h s v : at_h sl σ h s v -> h <> i -> at_h (update sl i s0) (replace_nth σ i v0) h s v.
Proof. unfold at_h. change (@replace_nth aval) with (@update aval); rewrite !nth_update. intros H Hn. destruct (Nat.eq_dec i h); [congruence|exact H]. Qed.
Lemma at_h_update_r sl σ i s0 v0 s v : at_h sl σ i s v -> at_h (update sl i s0) (replace_nth σ i v0) i s0 v0.
Proof. unfold at_h. change (@replace_nth aval) with (@update aval); rewrite !nth_update. intros [-> ->]. destruct (Nat.eq_dec i i); [auto|lia]. Qed.
Lemma kill_lens (sl : list slot) (σ : list aval) hs : length sl = length σ -> length (kill sl hs) = length (kill_vals σ hs).
Proof. change (kill sl hs) with (kills SDead sl hs); change (kill_vals σ hs) with (kills ADead σ hs); rewrite !kills_length. auto. Qed.
Lemma upd_lens (sl : list slot) (σ : list aval) i s0 v0 : length sl = length σ -> length (update sl i s0) = length (replace_nth σ i v0).
Proof. change (@replace_nth aval) with (@update aval); rewrite !update_length. auto. Qed.
