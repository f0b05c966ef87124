(** LayoutFacts.v - the geometry of layouts: parts are disjoint, in bounds, aligned. *)
From Verif Require Export History.

Lemma sp_tail_nil fs pos : sp_tail fs [] pos = [] /\ sp_end fs [] pos = pos.
Proof. destruct fs; auto. Qed.

Lemma Forall_le n k l : n <= k -> Forall (fun x => x <= n) l -> Forall (fun x => x <= k) l.
Proof. intros H F. eapply Forall_impl; [|exact F]. cbn. intros; lia. Qed.

Lemma numbers_le :
  (forall t, wf_ty t -> forall s, Forall (fun n => n <= sp_size t s) (lay_numbers (sp_lay t s))) /\
  (forall fs, wf_flds fs -> forall ss pos,
     Forall (fun n => n <= sp_end fs ss pos)
       (concat (map (fun '(off, l) => off :: lay_numbers l) (sp_tail fs ss pos)))).
Proof.
  apply vty_flds_ind.
  - intros f _ s. cbn. constructor; [lia|constructor].
  - intros f k Hf s. destruct s; cbn; try constructor; try constructor; try lia; constructor.
  - intros t IH Hwf s. cbn [sp_lay sp_size]. apply IH, Hwf.
  - intros kd hs ha fs IH (Hh & Hfs & _) s. destruct s; cbn [sp_lay lay_numbers]; try constructor; cbn [sp_size]; [lia|]. apply IH, Hfs.
  - intros _ ss pos. constructor.
  - intros off f r IH [_ Hr] ss pos. destruct ss as [|s ss]; cbn [sp_tail sp_end]; [constructor|]. apply IH, Hr.
  - intros off f r IH [_ Hr] ss pos. destruct ss as [|s ss]; cbn [sp_tail sp_end]; [constructor|]. apply IH, Hr.
  - intros t IHt r IH [Ht Hr] ss pos. destruct ss as [|s ss]; cbn [sp_tail sp_end map concat]; [constructor|].
    pose proof (sp_end_ge r Hr ss (up pos (sp_align t) + sp_size t s)) as Hge.
    cbn [app]. constructor; [lia|]. apply Forall_app. split; [|apply IH, Hr].
    eapply Forall_le; [|apply IHt, Ht]. lia.
  - intros f lf r IH (Hf & Hr) ss pos. destruct ss as [|[|n|] ss]; cbn [sp_tail sp_end map concat]; try constructor.
    + pose proof (sp_end_ge r Hr ss (up pos (f_align f) + n * f_size f)) as Hge. lia.
    + apply IH, Hr.
Qed.

Lemma fits_numbers t s : wf_ty t ->
  lay_size (sp_lay t s) = sp_size t s -> lay_numbers (sp_lay t s) <> [] ->
  (Forall (fun n => n < W) (lay_numbers (sp_lay t s)) <-> sp_size t s < W).
Proof.
  intros Hwf Hs Hne. pose proof (proj1 numbers_le t Hwf s) as Hle. split.
  - intros HF. rewrite <- Hs. destruct (sp_lay t s); cbn [lay_numbers lay_size] in *.
    + now inversion HF.
    + inversion HF as [|x l H1 H2]; subst. now inversion H2.
    + now inversion HF.
    + contradiction.
  - intros HW. eapply Forall_impl; [|exact Hle]. cbn. intros; lia.
Qed.

Lemma FOP_app {A} (R : A -> A -> Prop) l1 l2 :
  ForallOrdPairs R l1 -> ForallOrdPairs R l2 -> (forall x y, In x l1 -> In y l2 -> R x y) -> ForallOrdPairs R (l1 ++ l2).
Proof.
  intros H1 H2 H. induction H1 as [|x l F H1 IH]; cbn [app]; [exact H2|]. constructor.
  - apply Forall_app. split; [exact F|]. apply Forall_forall. intros y Hy. apply H; [left; reflexivity|exact Hy].
  - apply IH. intros u v Hu Hv. apply H; [right; exact Hu|exact Hv].
Qed.

Definition part_ok (o n A : N) (p : part) : Prop :=
  o <= p_addr p /\ p_addr p + p_size p <= o + n /\ pow2 (p_align p) /\ p_align p <= A /\
  (o mod A = 0 -> p_addr p mod p_align p = 0).

Lemma part_ok_sub o off n n' A A' p :
  pow2 A -> pow2 A' -> A <= A' -> off mod A = 0 -> off + n <= n' -> part_ok (o + off) n A p -> part_ok o n' A' p.
Proof.
  intros HA HA' Hle Ho Hn (H1 & H2 & H3 & H4 & H5). split; [lia|]. split; [lia|]. split; [exact H3|]. split; [lia|].
  intros Hm. apply H5. apply add_mod_0; auto. { pose proof (pow2_pos _ HA). lia. } eapply pow2_mod; [exact HA|exact HA'|exact Hle|exact Hm].
Qed.

Lemma array_parts_ok f o n : fty_ok f ->
  Forall (part_ok o (n * f_size f) (f_align f)) (array_parts f o n) /\
  ForallOrdPairs parts_apart (array_parts f o n).
Proof.
  intros (Hp & Hm & _). split.
  - apply Forall_forall. intros p Hin. unfold array_parts in Hin. apply in_map_iff in Hin. destruct Hin as (i & <- & Hi). apply in_upto in Hi.
    unfold part_ok, p_addr, p_size, p_align; cbn [fst snd]. split; [lia|]. split; [nia|]. split; [exact Hp|]. split; [lia|].
    intros Ho. pose proof (pow2_pos _ Hp). apply add_mod_0; [lia|exact Ho|]. apply mul_mod_0; [lia|exact Hm].
  - unfold array_parts, upto. generalize (N.to_nat n) as k. intros k.
    cut (forall b, ForallOrdPairs parts_apart (map (fun i => (o + i * f_size f, f_size f, f_align f)) (map N.of_nat (seq b k)))); [auto|].
    induction k as [|k IH]; intros b; cbn [seq map]; constructor; [|apply IH].
    apply Forall_forall. intros p Hin. apply in_map_iff in Hin. destruct Hin as (i & <- & Hi). apply in_map_iff in Hi. destruct Hi as (j & <- & Hj).
    apply in_seq in Hj. left. unfold p_addr, p_size; cbn [fst snd]. nia.
Qed.

Definition hpart (o : N) (x : N * fty) : part := (o + fst x, f_size (snd x), f_align (snd x)).

Lemma parts_facts :
  (forall t, wf_ty t -> forall s o,
     Forall (part_ok o (sp_size t s) (sp_align t)) (parts t (sp_lay t s) o) /\
     ForallOrdPairs parts_apart (parts t (sp_lay t s) o)) /\
  (forall fs, wf_flds fs -> forall ss pos o hs A,
     pow2 A -> sp_falign fs <= A -> hs <= pos ->
     (forall off f, In (off, f) (head_fields fs) -> off mod f_align f = 0 /\ off + f_size f <= hs /\ f_align f <= A) ->
     ForallOrdPairs hf_disjoint (head_fields fs) ->
     Forall (fun p => (exists x, In x (head_fields fs) /\ p = hpart o x) \/
                      (part_ok o (sp_end fs ss pos) A p /\ o + pos <= p_addr p))
       (parts_flds fs (sp_tail fs ss pos) o) /\
     Forall (part_ok o (sp_end fs ss pos) A) (parts_flds fs (sp_tail fs ss pos) o) /\
     ForallOrdPairs parts_apart (parts_flds fs (sp_tail fs ss pos) o) /\
     ForallOrdPairs (fun x y => fst x + snd x <= fst y) (tail_ranges fs (sp_tail fs ss pos)) /\
     Forall (fun x => pos <= fst x /\ fst x + snd x <= sp_end fs ss pos) (tail_ranges fs (sp_tail fs ss pos))).
Proof.
  apply vty_flds_ind.
  - intros f (Hp & Hm & _) s o. cbn [sp_lay parts sp_size sp_align]. split.
    + constructor; [|constructor]. unfold part_ok, p_addr, p_size, p_align; cbn [fst snd]. repeat split; auto; lia.
    + constructor; constructor.
  - intros f k Hf s o. destruct s; cbn [sp_lay parts sp_size sp_align]; try solve [split; constructor].
    pose proof (array_parts_ok f (o + up (len_size k) (f_align f)) n Hf) as [H1 H2].
    pose proof (pow2_pos _ (proj1 Hf)) as Hpos. pose proof (up_ge (len_size k) (f_align f) Hpos) as Hu.
    pose proof (len_size_pow2 k) as Hk. pose proof (proj1 Hf) as Hfp. split.
    + constructor.
      * unfold part_ok, p_addr, p_size, p_align; cbn [fst snd]. split; [lia|]. split; [lia|]. split; [exact Hk|]. split; [lia|].
        intros Ho. eapply pow2_mod; [exact Hk| |apply N.le_max_l|exact Ho]. apply pow2_max; auto.
      * eapply Forall_impl; [|exact H1]. intros p Hpk. eapply part_ok_sub; [exact Hfp| |apply N.le_max_r|apply up_mod; exact Hpos| |exact Hpk]; [apply pow2_max; auto|lia].
    + constructor; [|exact H2]. eapply Forall_impl; [|exact H1]. intros p (Q1 & _). left. unfold p_addr, p_size; cbn [fst snd]. unfold p_addr in Q1. lia.
  - intros t IH Hwf s o. cbn [sp_lay parts sp_size sp_align]. apply IH, Hwf.
  - intros kd hs ha fs IH (Hh & Hfs & _) s o. destruct s as [| |ss]; cbn [sp_lay parts sp_size sp_align]; try solve [split; constructor].
    destruct Hh as (Hha & Hhm & _ & Hin & Hd).
    pose proof (proj2 align_ok fs Hfs) as (_ & Hfp & _).
    destruct (IH Hfs ss hs o hs (N.max ha (sp_falign fs))) as (_ & F & D & _); auto.
    + apply pow2_max; auto.
    + lia.
    + lia.
    + intros off f Hi. destruct (Hin off f Hi) as (A & B & C). repeat split; auto. lia.
  - intros _ ss pos o hs A HA Hle Hhs Hin Hd. cbn. repeat split; constructor.
  - intros off f r IH [Hf Hr] ss pos o hs A HA Hle Hhs Hin Hd. cbn [head_fields] in *.
    assert (E : exists ss', sp_tail (FNormal off f r) ss pos = sp_tail r ss' pos /\ sp_end (FNormal off f r) ss pos = sp_end r ss' pos).
    { destruct ss as [|s ss]; [|exists ss; auto]. exists []. destruct (sp_tail_nil r pos) as [-> ->]. auto. }
    destruct E as (ss' & -> & ->). cbn [parts_flds tail_ranges].
    inversion Hd as [|x l Hd1 Hd2]; subst.
    destruct (IH Hr ss' pos o hs A HA Hle Hhs) as (I1 & I2 & I3 & I4 & I5); auto.
    { intros off' f' Hi. apply Hin. right. exact Hi. }
    destruct (Hin off f (or_introl eq_refl)) as (Q1 & Q2 & Q3).
    pose proof (sp_end_ge r Hr ss' pos) as Hge. pose proof (pow2_pos _ (proj1 Hf)) as Hpos.
    split; [|split; [|split; [|split; assumption]]].
    + constructor; [left; exists (off, f); split; [left; reflexivity|reflexivity]|].
      eapply Forall_impl; [|exact I1]. intros p [(x & Hx & ->)|H]; [left; exists x; split; [right; exact Hx|reflexivity]|right; exact H].
    + constructor; [|exact I2]. unfold part_ok, p_addr, p_size, p_align; cbn [fst snd]. split; [lia|]. split; [lia|]. split; [apply Hf|]. split; [exact Q3|].
      intros Ho. apply add_mod_0; [lia| |exact Q1]. eapply pow2_mod; [apply Hf|exact HA|exact Q3|exact Ho].
    + constructor; [|exact I3]. rewrite Forall_forall in *. intros p Hp. destruct (I1 p Hp) as [(x & Hx & ->)|[_ H]].
      * destruct (Hd1 x Hx) as [Hq|Hq]; cbn [fst snd] in Hq; [left|right]; unfold hpart, p_addr, p_size; cbn [fst snd]; lia.
      * left. unfold p_addr at 1, p_size; cbn [fst snd]. lia.
  - intros off f r IH [Hf Hr] ss pos o hs A HA Hle Hhs Hin Hd. cbn [head_fields] in *.
    assert (E : exists ss', sp_tail (FLength off f r) ss pos = sp_tail r ss' pos /\ sp_end (FLength off f r) ss pos = sp_end r ss' pos).
    { destruct ss as [|s ss]; [|exists ss; auto]. exists []. destruct (sp_tail_nil r pos) as [-> ->]. auto. }
    destruct E as (ss' & -> & ->). cbn [parts_flds tail_ranges].
    inversion Hd as [|x l Hd1 Hd2]; subst.
    destruct (IH Hr ss' pos o hs A HA Hle Hhs) as (I1 & I2 & I3 & I4 & I5); auto.
    { intros off' f' Hi. apply Hin. right. exact Hi. }
    destruct (Hin off f (or_introl eq_refl)) as (Q1 & Q2 & Q3).
    pose proof (sp_end_ge r Hr ss' pos) as Hge. pose proof (pow2_pos _ (proj1 Hf)) as Hpos.
    split; [|split; [|split; [|split; assumption]]].
    + constructor; [left; exists (off, f); split; [left; reflexivity|reflexivity]|].
      eapply Forall_impl; [|exact I1]. intros p [(x & Hx & ->)|H]; [left; exists x; split; [right; exact Hx|reflexivity]|right; exact H].
    + constructor; [|exact I2]. unfold part_ok, p_addr, p_size, p_align; cbn [fst snd]. split; [lia|]. split; [lia|]. split; [apply Hf|]. split; [exact Q3|].
      intros Ho. apply add_mod_0; [lia| |exact Q1]. eapply pow2_mod; [apply Hf|exact HA|exact Q3|exact Ho].
    + constructor; [|exact I3]. rewrite Forall_forall in *. intros p Hp. destruct (I1 p Hp) as [(x & Hx & ->)|[_ H]].
      * destruct (Hd1 x Hx) as [Hq|Hq]; cbn [fst snd] in Hq; [left|right]; unfold hpart, p_addr, p_size; cbn [fst snd]; lia.
      * left. unfold p_addr at 1, p_size; cbn [fst snd]. lia.
  - intros t IHt r IH [Ht Hr] ss pos o hs A HA Hle Hhs Hin Hd. cbn [head_fields sp_falign] in *.
    destruct ss as [|s ss]; cbn [sp_tail sp_end parts_flds tail_ranges]; [repeat split; constructor|].
    pose proof (sp_align_pos _ Ht) as Hpos. pose proof (up_ge pos (sp_align t) Hpos) as Hu.
    set (pos' := up pos (sp_align t) + sp_size t s).
    pose proof (sp_end_ge r Hr ss pos') as Hge.
    assert (Hp' : pos <= pos') by (unfold pos'; lia).
    destruct (IH Hr ss pos' o hs A HA) as (I1 & I2 & I3 & I4 & I5); auto; try lia.
    destruct (IHt Ht s (o + up pos (sp_align t))) as [J1 J2].
    assert (K : Forall (fun p => part_ok o (sp_end r ss pos') A p /\ o + pos <= p_addr p /\ p_addr p + p_size p <= o + pos') (parts t (sp_lay t s) (o + up pos (sp_align t)))).
    { eapply Forall_impl; [|exact J1]. intros p Hpk. split; [|destruct Hpk as (P1 & P2 & _); unfold pos'; lia].
      eapply part_ok_sub; [apply sp_align_pow2, Ht|exact HA| |apply up_mod; exact Hpos| |exact Hpk]; unfold pos' in *; lia. }
    split; [|split; [|split; [|split]]].
    + apply Forall_app. split.
      * eapply Forall_impl; [|exact K]. intros p (P1 & P2 & _). right. auto.
      * eapply Forall_impl; [|exact I1]. intros p [H|[H1 H2]]; [left; exact H|right]. split; [exact H1|lia].
    + apply Forall_app. split; [|exact I2]. eapply Forall_impl; [|exact K]. intros p (P1 & _). exact P1.
    + apply FOP_app; [exact J2|exact I3|]. intros x y Hx Hy. rewrite Forall_forall in *. destruct (K x Hx) as (_ & K2 & K3).
      destruct (I1 y Hy) as [((yo, yf) & Hz & ->)|[_ H]].
      * right. destruct (Hin _ _ Hz) as (_ & Q & _). unfold hpart, p_addr at 1, p_size at 1; cbn [fst snd]. lia.
      * left. lia.
    + assert (El : lay_size (sp_lay t s) <= sp_size t s).
      { clear. revert s. induction t; intros s; destruct s; cbn; try lia; auto. }
      constructor; [|exact I4]. eapply Forall_impl; [|exact I5]. cbn [fst snd]. intros x [H _]. unfold pos' in H. lia.
    + assert (El : lay_size (sp_lay t s) <= sp_size t s).
      { clear. revert s. induction t; intros s; destruct s; cbn; try lia; auto. }
      constructor; [cbn [fst snd]; unfold pos' in *; lia|]. eapply Forall_impl; [|exact I5]. intros x [H1 H2]. split; lia.
  - intros f lf r IH (Hf & Hr) ss pos o hs A HA Hle Hhs Hin Hd. cbn [head_fields sp_falign] in *.
    destruct ss as [|[|n|] ss]; cbn [sp_tail sp_end parts_flds tail_ranges]; try solve [repeat split; constructor].
    pose proof (pow2_pos _ (proj1 Hf)) as Hpos. pose proof (up_ge pos (f_align f) Hpos) as Hu.
    set (pos' := up pos (f_align f) + n * f_size f).
    pose proof (sp_end_ge r Hr ss pos') as Hge.
    assert (Hp' : pos <= pos') by (unfold pos'; lia).
    destruct (IH Hr ss pos' o hs A HA) as (I1 & I2 & I3 & I4 & I5); auto; try lia.
    destruct (array_parts_ok f (o + up pos (f_align f)) n Hf) as [J1 J2].
    assert (K : Forall (fun p => part_ok o (sp_end r ss pos') A p /\ o + pos <= p_addr p /\ p_addr p + p_size p <= o + pos') (array_parts f (o + up pos (f_align f)) n)).
    { eapply Forall_impl; [|exact J1]. intros p Hpk. split; [|destruct Hpk as (P1 & P2 & _); unfold pos'; lia].
      eapply part_ok_sub; [apply Hf|exact HA| |apply up_mod; exact Hpos| |exact Hpk]; unfold pos' in *; lia. }
    split; [|split; [|split; [|split]]].
    + apply Forall_app. split.
      * eapply Forall_impl; [|exact K]. intros p (P1 & P2 & _). right. auto.
      * eapply Forall_impl; [|exact I1]. intros p [H|[H1 H2]]; [left; exact H|right]. split; [exact H1|lia].
    + apply Forall_app. split; [|exact I2]. eapply Forall_impl; [|exact K]. intros p (P1 & _). exact P1.
    + apply FOP_app; [exact J2|exact I3|]. intros x y Hx Hy. rewrite Forall_forall in *. destruct (K x Hx) as (_ & K2 & K3).
      destruct (I1 y Hy) as [((yo, yf) & Hz & ->)|[_ H]].
      * right. destruct (Hin _ _ Hz) as (_ & Q & _). unfold hpart, p_addr at 1, p_size at 1; cbn [fst snd]. lia.
      * left. lia.
    + constructor; [|exact I4]. eapply Forall_impl; [|exact I5]. cbn [fst snd]. intros x [H _]. unfold pos' in H. lia.
    + constructor; [cbn [fst snd]; unfold pos' in *; lia|]. eapply Forall_impl; [|exact I5]. intros x [H1 H2]. split; lia.
Qed.
