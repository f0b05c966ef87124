(** AliasProofs.v - Tree Borrows: which accesses keep which references usable. *)
From Verif Require Import Arith LayoutFacts.
From Verif Require Import AliasSpec.

(** ** Tags *)
Lemma tag_eqb_spec t u : tag_eqb t u = true <-> t = u.
Proof.
  revert u. induction t as [|i t IH]; intros [|j u]; cbn; try (split; congruence). rewrite andb_true_iff, Nat.eqb_eq, IH. split; [intros [-> ->]; reflexivity|intros H; injection H as -> ->; auto].
Qed.
Lemma under_refl t : under t t = true.
Proof. destruct t; cbn [under]; now rewrite (proj2 (tag_eqb_spec _ _) eq_refl). Qed.
Lemma under_cons i t u : under (i :: t) u = true <-> i :: t = u \/ under t u = true.
Proof. cbn [under]. rewrite orb_true_iff, tag_eqb_spec. reflexivity. Qed.
Lemma under_trans t u v : under t u = true -> under u v = true -> under t v = true.
Proof.
  induction t as [|i t IH]; intros H1 H2.
  - destruct u; [exact H2|discriminate].
  - apply under_cons in H1. destruct H1 as [<-|H1]; [exact H2|]. apply under_cons. right. now apply IH.
Qed.
Definition below (n : nat) (t : tag) : Prop := Forall (fun i => (i < n)%nat) t.
Lemma below_le n m t : (n <= m)%nat -> below n t -> below m t.
Proof. intros L. apply Forall_impl. intros; lia. Qed.
Lemma below_under n t u : below n t -> under t u = true -> below n u.
Proof.
  induction t as [|i t IH]; intros Bt Hu.
  - destruct u; [constructor|discriminate].
  - apply under_cons in Hu. destruct Hu as [<-|Hu]; [exact Bt|]. inversion Bt; subst. auto.
Qed.
Definition bounded (b : bstate) : Prop := forall u π, In (u, π) (br_perms b) -> below (br_next b) u.

(** ** Readable, writable *)
Definition rd_ok (b : bstate) (t : tag) (x : N) : Prop := forall u π, In (u, π) (br_perms b) -> under t u = true -> π x <> Disabled.
(** Writable, also after any number of reads through [T] and its descendants. *)
Definition wr_ok (T : tag) (b : bstate) (t : tag) (x : N) : Prop :=
  forall u π, In (u, π) (br_perms b) -> under t u = true -> (under T u = true /\ (π x = Reserved \/ π x = Active)) \/ π x = Reserved.
Definition can (m : bool) (b : bstate) (t : tag) (x : N) : Prop := if m then wr_ok t b t x else rd_ok b t x.
Lemma wr_rd T b t x : wr_ok T b t x -> rd_ok b t x.
Proof. intros H u π Hi Hu. destruct (H u π Hi Hu) as [[_ [-> | ->]]| ->]; discriminate. Qed.
Lemma can_rd m b t x : can m b t x -> rd_ok b t x.
Proof. destruct m; [apply wr_rd|auto]. Qed.
Lemma wr_base T b t x : wr_ok T b t x -> wr_ok t b t x.
Proof. intros H u π Hi Hu. destruct (H u π Hi Hu) as [[_ ?]|?]; auto. Qed.
Lemma wr_up T T' b t x : under T' T = true -> wr_ok T b t x -> wr_ok T' b t x.
Proof. intros HT H u π Hi Hu. destruct (H u π Hi Hu) as [[H1 ?]|?]; auto. left. split; [|assumption]. now apply (under_trans T' T). Qed.

(** ** Accesses *)
Lemma access_back k t x l l' : access_all k t x l = Some l' ->
  forall u π', In (u, π') l' -> exists π, In (u, π) l /\ (forall y, y <> x -> π' y = π y) /\
    (under t u = true -> local k (π x) = Some (π' x)) /\ (under t u = false -> π' x = foreign k (π x)).
Proof.
  revert l'. induction l as [|[v ρ] l IH]; intros l' H u π' Hi; cbn [access_all] in H; [injection H as <-; destruct Hi|].
  destruct (access_all k t x l) as [r|]; [|discriminate]. specialize (IH r eq_refl).
  destruct (under t v) eqn:Hv.
  - destruct (local k (ρ x)) as [q|] eqn:E; [|discriminate]. injection H as <-. destruct Hi as [Hi|Hi].
    + injection Hi as <- <-. exists ρ. split; [now left|]. unfold set_perm. split; [intros y Hy; now rewrite (proj2 (N.eqb_neq y x) Hy)|]. split; intros; [now rewrite N.eqb_refl|congruence].
    + destruct (IH u π' Hi) as (π & A & C). exists π. split; [now right|exact C].
  - injection H as <-. destruct Hi as [Hi|Hi].
    + injection Hi as <- <-. exists ρ. split; [now left|]. unfold set_perm. split; [intros y Hy; now rewrite (proj2 (N.eqb_neq y x) Hy)|]. split; intros; [congruence|now rewrite N.eqb_refl].
    + destruct (IH u π' Hi) as (π & A & C). exists π. split; [now right|exact C].
Qed.
Lemma access_some k t x l : (forall u π, In (u, π) l -> under t u = true -> local k (π x) <> None) -> exists l', access_all k t x l = Some l'.
Proof.
  induction l as [|[v ρ] l IH]; intros H; [eexists; reflexivity|]. cbn [access_all]. destruct IH as [r ->]; [intros u π Hi; apply H; now right|].
  destruct (under t v) eqn:Hv; [|eauto]. destruct (local k (ρ x)) eqn:E; eauto. exfalso. apply (H v ρ); auto. now left.
Qed.

(** What reading does: [reads T R b b']: from [b], reads through [T] and descendants inside [R], and new tags, lead to [b']. *)
Record reads (T : tag) (R : N -> Prop) (b b' : bstate) : Prop := mkReads {
  rd_next : (br_next b <= br_next b')%nat;
  rd_bounded : bounded b -> bounded b';
  rd_keep : forall c x, below (br_next b) c -> rd_ok b c x -> rd_ok b' c x;
  rd_out : forall c D x, below (br_next b) c -> ~ R x -> wr_ok D b c x -> wr_ok D b' c x;
  rd_wr : forall c x, below (br_next b) c -> wr_ok T b c x -> wr_ok T b' c x }.
Lemma reads_refl T R b : reads T R b b.
Proof. constructor; auto. Qed.
Lemma reads_trans T R b1 b2 b3 : reads T R b1 b2 -> reads T R b2 b3 -> reads T R b1 b3.
Proof.
  intros [A1 A2 A3 A4 A5] [C1 C2 C3 C4 C5]. constructor.
  - lia.
  - auto.
  - intros c x L H. apply C3; [eapply below_le; eauto|auto].
  - intros c D x L Hx H. apply C4; [eapply below_le; eauto|exact Hx|auto].
  - intros c x L H. apply C5; [eapply below_le; eauto|auto].
Qed.
Lemma read_ok T (R : N -> Prop) b t x : under t T = true -> R x -> rd_ok b t x ->
  exists b', access Rd t x b = Some (tt, b') /\ reads T R b b' /\ br_next b' = br_next b.
Proof.
  intros Ht HR Hr. destruct (access_some Rd t x (br_perms b)) as [l E].
  { intros u π Hi Hu. specialize (Hr u π Hi Hu). destruct (π x); cbn; congruence. }
  unfold access. rewrite E. eexists. split; [reflexivity|]. split; [|reflexivity]. pose proof (access_back Rd t x _ _ E) as Hb. constructor; cbn.
  - lia.
  - intros HB u π' Hi. destruct (Hb u π' Hi) as (π & Hi' & _). exact (HB u π Hi').
  - intros c y _ Hc u π' Hi Hu. destruct (Hb u π' Hi) as (π & Hi' & H1 & H2 & H3). specialize (Hc u π Hi' Hu).
    destruct (N.eq_dec y x) as [->|Hy]; [|now rewrite H1]. destruct (under t u) eqn:Eu.
    + specialize (H2 eq_refl). destruct (π x), (π' x); cbn in H2; congruence.
    + rewrite (H3 eq_refl). destruct (π x); cbn; congruence.
  - intros c D y _ Hy Hc u π' Hi Hu. destruct (Hb u π' Hi) as (π & Hi' & H1 & _). rewrite H1; [now apply Hc|]. intros ->. contradiction.
  - intros c y _ Hc u π' Hi Hu. destruct (Hb u π' Hi) as (π & Hi' & H1 & H2 & H3). specialize (Hc u π Hi' Hu).
    destruct (N.eq_dec y x) as [->|Hy]; [|now rewrite H1]. destruct Hc as [[Hc1 Hc2]|Hc].
    + left. split; [exact Hc1|]. specialize (H2 (under_trans _ _ _ Ht Hc1)). destruct Hc2 as [Hc2|Hc2]; rewrite Hc2 in H2; cbn in H2; injection H2 as <-; auto.
    + right. destruct (under t u) eqn:Eu.
      * specialize (H2 eq_refl). rewrite Hc in H2. cbn in H2. now injection H2 as <-.
      * rewrite (H3 eq_refl), Hc. reflexivity.
Qed.
Lemma read_list_ok T (R : N -> Prop) t xs : forall b, under t T = true -> (forall x, In x xs -> R x /\ rd_ok b t x) -> below (br_next b) t ->
  exists b', access_list Rd t xs b = Some (tt, b') /\ reads T R b b' /\ br_next b' = br_next b.
Proof.
  induction xs as [|x xs IH]; intros b Ht H L; cbn [access_list].
  - exists b. split; [reflexivity|]. split; [apply reads_refl|reflexivity].
  - destruct (H x (or_introl eq_refl)) as [H1 H2]. destruct (read_ok T R b t x Ht H1 H2) as (b1 & E1 & R1 & N1). unfold bbind. rewrite E1.
    destruct (IH b1 Ht) as (b2 & E2 & R2 & N2).
    + intros y Hy. split; [apply H; now right|]. apply (rd_keep _ _ _ _ R1); [exact L|apply H; now right].
    + now rewrite N1.
    + exists b2. split; [exact E2|]. split; [eapply reads_trans; eauto|congruence].
Qed.
Lemma in_range a n x : In x (map (fun i => a + i) (upto n)) <-> a <= x < a + n.
Proof.
  rewrite in_map_iff. split.
  - intros (i & <- & Hi). apply in_upto in Hi. lia.
  - intros H. exists (x - a). split; [lia|]. apply in_upto. lia.
Qed.
Lemma read_range_ok T (R : N -> Prop) b t a n : under t T = true -> (forall x, a <= x < a + n -> R x /\ rd_ok b t x) -> below (br_next b) t ->
  exists b', access_range Rd t a n b = Some (tt, b') /\ reads T R b b' /\ br_next b' = br_next b.
Proof. intros Ht H L. apply read_list_ok; auto. intros x Hx. apply in_range in Hx. auto. Qed.

(** A new tag. *)
Lemma child_ok T R b p q a n : bounded b -> below (br_next b) p ->
  exists c b', child false p q a n b = Some (c, b') /\ reads T R b b' /\ below (br_next b') c /\ under c p = true /\
    (q <> Disabled -> forall x, rd_ok b p x -> rd_ok b' c x) /\
    (q = Reserved -> forall D x, wr_ok D b p x -> wr_ok D b' c x).
Proof.
  intros HB L. eexists _, _. split; [reflexivity|]. set (c := br_next b :: p).
  assert (Lc : below (S (br_next b)) c) by (constructor; [lia|apply (below_le (br_next b)); [lia|exact L]]).
  assert (NU : forall u, below (br_next b) u -> under u c = true -> False).
  { intros u Lu Hu. pose proof (below_under _ _ _ Lu Hu) as X. inversion X; subst. lia. }
  split; [|split; [exact Lc|split; [apply under_cons; right; apply under_refl|split]]].
  - constructor; cbn [br_next br_perms andb].
    + lia.
    + intros _ u π [Hi|Hi]; [injection Hi as <- <-; exact Lc|]. apply (below_le (br_next b)); [cbn; lia|]. exact (HB u π Hi).
    + intros d x Ld H u π [Hi|Hi] Hu; [injection Hi as <- <-; exfalso; exact (NU d Ld Hu)|]. exact (H u π Hi Hu).
    + intros d D x Ld _ H u π [Hi|Hi] Hu; [injection Hi as <- <-; exfalso; exact (NU d Ld Hu)|]. exact (H u π Hi Hu).
    + intros d x Ld H u π [Hi|Hi] Hu; [injection Hi as <- <-; exfalso; exact (NU d Ld Hu)|]. exact (H u π Hi Hu).
  - intros Hq x H u π [Hi|Hi] Hu; [injection Hi as <- <-; exact Hq|]. apply (H u π Hi). apply under_cons in Hu. destruct Hu as [<-|Hu]; [|exact Hu].
    exfalso. exact (NU c (HB c π Hi) (under_refl c)).
  - intros -> D x H u π [Hi|Hi] Hu; [injection Hi as <- <-; now right|]. apply (H u π Hi). apply under_cons in Hu. destruct Hu as [<-|Hu]; [|exact Hu].
    exfalso. exact (NU c (HB c π Hi) (under_refl c)).
Qed.
(** [grown T R b p c b']: a reference with tag [c] has been made from one with tag [p]. *)
Definition grown (m : bool) (T : tag) (R : N -> Prop) (b : bstate) (p c : tag) (b' : bstate) : Prop :=
  reads T R b b' /\ below (br_next b') c /\ under c p = true /\ (forall x, rd_ok b p x -> rd_ok b' c x) /\
  (m = true -> forall x, wr_ok T b p x -> wr_ok T b' c x).
Lemma retag_shared_ok T (R : N -> Prop) b p a n : bounded b -> below (br_next b) p -> under p T = true ->
  (forall x, a <= x < a + n -> R x /\ rd_ok b p x) ->
  exists c b', retag_shared false p a n b = Some (c, b') /\ grown false T R b p c b'.
Proof.
  intros HB L HT H. unfold retag_shared, bbind. destruct (child_ok T R b p Frozen a n HB L) as (c & b1 & E1 & R1 & L1 & U1 & K1 & _). rewrite E1.
  destruct (read_range_ok T R b1 c a n) as (b2 & E2 & R2 & N2).
  - now apply (under_trans c p).
  - intros x Hx. destruct (H x Hx). split; [assumption|]. apply K1; [discriminate|assumption].
  - exact L1.
  - rewrite E2. exists c, b2. split; [reflexivity|]. split; [eapply reads_trans; eauto|]. split; [now rewrite N2|]. split; [exact U1|]. split; [|discriminate].
    intros x Hx. apply (rd_keep _ _ _ _ R2); [exact L1|]. apply K1; [discriminate|exact Hx].
Qed.
Lemma retag_mut_ok T (R : N -> Prop) b un p a n : bounded b -> below (br_next b) p -> under p T = true ->
  (forall x, a <= x < a + n -> R x /\ rd_ok b p x) ->
  exists c b', retag_mut false un p a n b = Some (c, b') /\ grown true T R b p c b'.
Proof.
  intros HB L HT H. unfold retag_mut, bbind. destruct un.
  2: { exists p, b. split; [reflexivity|]. split; [apply reads_refl|]. split; [exact L|]. split; [apply under_refl|]. auto. }
  destruct (child_ok T R b p Reserved a n HB L) as (c & b1 & E1 & R1 & L1 & U1 & K1 & K2). rewrite E1.
  destruct (read_range_ok T R b1 c a n) as (b2 & E2 & R2 & N2).
  - now apply (under_trans c p).
  - intros x Hx. destruct (H x Hx). split; [assumption|]. apply K1; [discriminate|assumption].
  - exact L1.
  - rewrite E2. exists c, b2. split; [reflexivity|]. split; [eapply reads_trans; eauto|]. split; [now rewrite N2|]. split; [exact U1|]. split.
    + intros x Hx. apply (rd_keep _ _ _ _ R2); [exact L1|]. apply K1; [discriminate|exact Hx].
    + intros _ x Hx. apply (rd_wr _ _ _ _ R2); [exact L1|]. now apply K2.
Qed.

(** ** Layouts *)
(** Ready to read the bytes from [lo] to [hi] through [p]. *)
Definition ready (T : tag) (R : N -> Prop) (b : bstate) (p : tag) (lo hi : N) : Prop :=
  bounded b /\ below (br_next b) p /\ under p T = true /\ forall x, lo <= x < hi -> R x /\ rd_ok b p x.
Lemma ready_reads T R b b' p lo hi : ready T R b p lo hi -> reads T R b b' -> ready T R b' p lo hi.
Proof.
  intros (A & C & D & E) H. split; [now apply (rd_bounded _ _ _ _ H)|]. split; [exact (below_le _ _ _ (rd_next _ _ _ _ H) C)|]. split; [exact D|].
  intros x Hx. destruct (E x Hx). split; [assumption|]. now apply (rd_keep _ _ _ _ H).
Qed.
Lemma ready_sub T R b p lo hi lo' hi' : lo <= lo' -> hi' <= hi -> ready T R b p lo hi -> ready T R b p lo' hi'.
Proof. intros ? ? (A & C & D & E). split; [exact A|]. split; [exact C|]. split; [exact D|]. intros x Hx. apply E. lia. Qed.
Lemma ready_grown m T R b p c b' lo hi : ready T R b p lo hi -> grown m T R b p c b' -> ready T R b' c lo hi.
Proof.
  intros (A & C & D & E) (G1 & G2 & G3 & G4 & _). split; [now apply (rd_bounded _ _ _ _ G1)|]. split; [exact G2|]. split; [now apply (under_trans c p)|].
  intros x Hx. destruct (E x Hx). auto.
Qed.
Lemma ready_shared T R b p lo hi a n : ready T R b p lo hi -> lo <= a -> a + n <= hi ->
  exists c b', retag_shared false p a n b = Some (c, b') /\ grown false T R b p c b'.
Proof. intros (A & C & D & E) ? ?. apply retag_shared_ok; auto. intros x Hx. apply E. lia. Qed.
Lemma ready_mut T R b un p lo hi a n : ready T R b p lo hi -> lo <= a -> a + n <= hi ->
  exists c b', retag_mut false un p a n b = Some (c, b') /\ grown true T R b p c b'.
Proof. intros (A & C & D & E) ? ?. apply retag_mut_ok; auto. intros x Hx. apply E. lia. Qed.
Lemma ready_range T R b p lo hi a n : ready T R b p lo hi -> lo <= a -> a + n <= hi ->
  exists b', access_range Rd p a n b = Some (tt, b') /\ reads T R b b'.
Proof. intros (A & C & D & E) ? ?. destruct (read_range_ok T R b p a n) as (b' & X & Y & _); eauto. intros x Hx. apply E. lia. Qed.

Lemma al_ctrls_ok T R cs : forall a p b hi, ready T R b p a hi -> (forall off f, In (off, f) cs -> a + off + f_size f <= hi) ->
  exists b', al_ctrls false cs a p b = Some (tt, b') /\ reads T R b b'.
Proof.
  induction cs as [|[off f] cs IH]; intros a p b hi H Hc; cbn [al_ctrls].
  - exists b. split; [reflexivity|apply reads_refl].
  - pose proof (Hc off f (or_introl eq_refl)) as Hf.
    destruct (ready_shared _ _ _ _ _ _ (a + off) (f_size f) H) as (c & b1 & E1 & G1); [lia|exact Hf|]. unfold bbind at 1. rewrite E1.
    pose proof (ready_grown _ _ _ _ _ _ _ _ _ H G1) as Hc1. destruct G1 as (G1 & _).
    destruct (IH a p b1 hi (ready_reads _ _ _ _ _ _ _ H G1)) as (b2 & E2 & R2); [intros; apply Hc; now right|]. unfold bbind. rewrite E2.
    destruct (ready_range _ _ _ _ _ _ (a + off) (f_size f) (ready_reads _ _ _ _ _ _ _ Hc1 R2)) as (b3 & E3 & R3); [lia|exact Hf|].
    exists b3. split; [exact E3|]. exact (reads_trans _ _ _ _ _ G1 (reads_trans _ _ _ _ _ R2 R3)).
Qed.
Lemma ctrl_head fs x : In x (ctrl_fields fs) -> In x (head_fields fs).
Proof. induction fs; cbn; intuition. Qed.
Lemma vsize_rec kd hs ha fs vs : vsize (TRec kd hs ha fs) (VRec vs) = sp_end fs (map vshape vs) hs.
Proof. reflexivity. Qed.
Lemma al_layout_ok T R :
  (forall t, wf_ty t -> forall v a p b, vok t v -> ready T R b p a (a + vsize t v) ->
     exists b', al_layout false t (sp_lay t (vshape v)) a p b = Some (tt, b') /\ reads T R b b') /\
  (forall fs, wf_flds fs -> forall vs cs pos a p b, vok_flds fs vs cs -> ready T R b p (a + pos) (a + sp_end fs (map vshape vs) pos) ->
     exists b', al_nested false fs (sp_tail fs (map vshape vs) pos) a p b = Some (tt, b') /\ reads T R b b').
Proof.
  apply vty_flds_ind.
  - intros f _ v a p b _ _. exists b. split; [reflexivity|apply reads_refl].
  - intros f k Hwf v a p b Hv H. destruct v; try contradiction. cbn [al_layout vshape sp_lay]. apply (ready_range _ _ _ _ _ _ a (len_size k) H); [lia|].
    pose proof (head_size_le (TArray f k) (VArr xs) Hwf Hv) as L. cbn [head_size] in L. lia.
  - intros t IH Hwf v a p b Hv H. destruct v; try contradiction. cbn [wf_ty vok] in *. cbn [al_layout vshape sp_lay].
    change (vsize (TNew t) (VNew v)) with (vsize t v) in H.
    pose proof (head_size_le t v Hwf Hv) as L.
    destruct (ready_shared _ _ _ _ _ _ a (head_size t) H) as (c & b1 & E1 & G1); [lia|lia|]. unfold bbind. rewrite E1.
    destruct (IH Hwf v a c b1 Hv (ready_grown _ _ _ _ _ _ _ _ _ H G1)) as (b2 & E2 & R2). exists b2. split; [exact E2|].
    exact (reads_trans _ _ _ _ _ (proj1 G1) R2).
  - intros kd hs ha fs IH (Hh & Hfs & _) v a p b Hv H. destruct v; try contradiction. cbn [vok] in *. cbn [al_layout vshape sp_lay].
    rewrite vsize_rec in H. pose proof (sp_end_ge fs Hfs (map vshape vs) hs) as L.
    destruct (al_ctrls_ok T R (ctrl_fields fs) a p b _ H) as (b1 & E1 & R1).
    { intros off f Hi. destruct Hh as (_ & _ & _ & Hh & _). destruct (Hh off f (ctrl_head _ _ Hi)) as (_ & X & _). lia. }
    unfold bbind. rewrite E1. destruct (IH Hfs vs _ hs a p b1 Hv) as (b2 & E2 & R2).
    { apply (ready_sub _ _ _ _ a (a + sp_end fs (map vshape vs) hs)); [lia|lia|]. exact (ready_reads _ _ _ _ _ _ _ H R1). }
    exists b2. split; [exact E2|]. exact (reads_trans _ _ _ _ _ R1 R2).
  - intros _ vs cs pos a p b _ _. exists b. split; [reflexivity|apply reads_refl].
  - intros off f r IH [_ Hr] vs cs pos a p b Hv H. destruct vs as [|[] vs]; cbn [vok_flds] in Hv; try contradiction. destruct Hv as [_ Hv]. exact (IH Hr vs cs pos a p b Hv H).
  - intros off f r IH [_ Hr] vs cs pos a p b Hv H. destruct vs as [|[] vs]; cbn [vok_flds] in Hv; try contradiction. destruct Hv as [_ Hv]. exact (IH Hr vs cs pos a p b Hv H).
  - intros t IHt r IH [Ht Hr] vs cs pos a p b Hv H. destruct vs as [|v vs]; cbn [vok_flds] in Hv; try contradiction. destruct Hv as [Hv Hvs].
    cbn [map sp_tail sp_end al_nested] in *. set (q := up pos (sp_align t)) in *. fold (vsize t v) in *.
    pose proof (up_ge pos (sp_align t) (sp_align_pos t Ht)) as Lq. fold q in Lq.
    pose proof (sp_end_ge r Hr (map vshape vs) (q + vsize t v)) as Le. pose proof (head_size_le t v Ht Hv) as Lh.
    destruct (ready_shared _ _ _ _ _ _ (a + q) (head_size t) H) as (c & b1 & E1 & G1); [lia|lia|]. unfold bbind. rewrite E1.
    destruct (IHt Ht v (a + q) c b1 Hv) as (b2 & E2 & R2).
    { refine (ready_sub _ _ _ _ _ _ _ _ _ _ (ready_grown _ _ _ _ _ _ _ _ _ H G1)); lia. }
    rewrite E2. destruct G1 as (G1 & _). pose proof (reads_trans _ _ _ _ _ G1 R2) as R12.
    destruct (IH Hr vs cs (q + vsize t v) a p b2 Hvs) as (b3 & E3 & R3).
    { refine (ready_sub _ _ _ _ _ _ _ _ _ _ (ready_reads _ _ _ _ _ _ _ H R12)); lia. }
    exists b3. split; [exact E3|]. exact (reads_trans _ _ _ _ _ R12 R3).
  - intros f lf r IH [Hf Hr] vs cs pos a p b Hv H. destruct vs as [|[] vs]; cbn [vok_flds] in Hv; try contradiction. destruct Hv as (_ & _ & Hvs).
    cbn [map vshape sp_tail sp_end al_nested] in *. pose proof (up_ge pos (f_align f) (pow2_pos _ (proj1 Hf))) as Lq.
    apply (IH Hr vs cs _ a p b Hvs). refine (ready_sub _ _ _ _ _ _ _ _ _ _ H); lia.
Qed.

(** ** The references made *)
(** [r] is made from a borrow with tag [T], inside the [n] bytes at [a]; mutable only if [m]. *)
Definition made (m : bool) (T : tag) (b : bstate) (a n : N) (r : aref) : Prop :=
  sound_ref r /\ below (br_next b) (r_tag r) /\ under (r_tag r) T = true /\ a <= r_addr r /\ r_addr r + r_size r <= a + n /\
  (r_mut r = true -> m = true) /\ forall x, in_ref x r -> if r_mut r then wr_ok T b (r_tag r) x else rd_ok b (r_tag r) x.
Lemma made_reads m T R b b' a n r : made m T b a n r -> reads T R b b' -> made m T b' a n r.
Proof.
  intros (A & C & D & E & F & G & K) H. split; [exact A|]. split; [exact (below_le _ _ _ (rd_next _ _ _ _ H) C)|]. do 4 (split; [assumption|]).
  intros x Hx. specialize (K x Hx). destruct (r_mut r); [now apply (rd_wr _ _ _ _ H)|now apply (rd_keep _ _ _ _ H)].
Qed.
Lemma made_shared m T R b p c b' o u k a n : ready T R b p a (a + n) -> grown false T R b p c b' ->
  sound_ref (mkAR c o u k false) -> a <= u -> u + k <= a + n -> made m T b' a n (mkAR c o u k false).
Proof.
  intros (A & C & D & E) (G1 & G2 & G3 & G4 & _) Hs H1 H2. split; [exact Hs|]. split; [exact G2|]. split; [now apply (under_trans c p)|]. cbn.
  split; [exact H1|]. split; [exact H2|]. split; [discriminate|]. unfold in_ref; cbn. intros x Hx. apply G4. apply E. lia.
Qed.
Lemma made_mut T R b p c b' o u k a n : ready T R b p a (a + n) -> grown true T R b p c b' ->
  (forall x, a <= x < a + n -> wr_ok T b p x) ->
  sound_ref (mkAR c o u k true) -> a <= u -> u + k <= a + n -> made true T b' a n (mkAR c o u k true).
Proof.
  intros (A & C & D & E) (G1 & G2 & G3 & _ & G4) Hw Hs H1 H2. split; [exact Hs|]. split; [exact G2|]. split; [now apply (under_trans c p)|]. cbn.
  split; [exact H1|]. split; [exact H2|]. split; [reflexivity|]. unfold in_ref; cbn. intros x Hx. apply G4; [reflexivity|]. apply Hw. lia.
Qed.
Lemma sound_obj c t v u (m : bool) : wf_ty t -> vok t v -> sound_ref (mkAR c (OObj t (sp_lay t (vshape v))) u (lay_size (sp_lay t (vshape v))) m).
Proof. intros Hwf Hv. split; [exact Hwf|]. split; [exists v; auto|reflexivity]. Qed.

Lemma al_refs_flds_ok T R n hs : forall fs, wf_flds fs -> forall vs cs pos a p b, vok_flds fs vs cs -> ready T R b p a (a + n) ->
  sp_end fs (map vshape vs) pos <= n -> hs <= n -> (forall off f, In (off, f) (head_fields fs) -> off + f_size f <= hs) ->
  exists rs b', al_refs_flds false fs (sp_tail fs (map vshape vs) pos) a p b = Some (rs, b') /\ reads T R b b' /\ Forall (made false T b' a n) rs.
Proof.
  induction fs as [|off f r IH|off f r IH|t r IH|f lf r IH]; intros Hwf vs cs pos a p b Hv H Hn Hhs Hh.
  - exists [], b. split; [reflexivity|]. split; [apply reads_refl|constructor].
  - destruct Hwf as [_ Hr]. destruct vs as [|[] vs]; cbn [vok_flds] in Hv; try contradiction. destruct Hv as [_ Hv]. cbn [map vshape sp_tail sp_end al_refs_flds head_fields] in *.
    pose proof (Hh off f (or_introl eq_refl)) as Hf.
    destruct (ready_shared _ _ _ _ _ _ (a + off) (f_size f) H) as (c & b1 & E1 & G1); [lia|lia|]. unfold bbind. rewrite E1.
    destruct (IH Hr vs cs pos a p b1 Hv (ready_reads _ _ _ _ _ _ _ H (proj1 G1)) Hn Hhs) as (rs & b2 & E2 & R2 & F2); [intros; apply Hh; now right|]. rewrite E2.
    eexists _, b2. split; [reflexivity|]. split; [exact (reads_trans _ _ _ _ _ (proj1 G1) R2)|]. constructor; [|exact F2].
    refine (made_reads _ _ _ _ _ _ _ _ (made_shared _ _ _ _ _ _ _ _ _ _ _ _ H G1 _ _ _) R2); [exact I|lia|lia].
  - destruct Hwf as [_ Hr]. destruct vs as [|[] vs]; cbn [vok_flds] in Hv; try contradiction. destruct Hv as [_ Hv]. cbn [map vshape sp_tail sp_end al_refs_flds head_fields] in *.
    pose proof (Hh off f (or_introl eq_refl)) as Hf.
    destruct (ready_shared _ _ _ _ _ _ (a + off) (f_size f) H) as (c & b1 & E1 & G1); [lia|lia|]. unfold bbind. rewrite E1.
    destruct (IH Hr vs cs pos a p b1 Hv (ready_reads _ _ _ _ _ _ _ H (proj1 G1)) Hn Hhs) as (rs & b2 & E2 & R2 & F2); [intros; apply Hh; now right|]. rewrite E2.
    eexists _, b2. split; [reflexivity|]. split; [exact (reads_trans _ _ _ _ _ (proj1 G1) R2)|]. constructor; [|exact F2].
    refine (made_reads _ _ _ _ _ _ _ _ (made_shared _ _ _ _ _ _ _ _ _ _ _ _ H G1 _ _ _) R2); [exact I|lia|lia].
  - destruct Hwf as [Ht Hr]. destruct vs as [|v vs]; cbn [vok_flds] in Hv; try contradiction. destruct Hv as [Hv Hvs].
    cbn [map sp_tail sp_end al_refs_flds head_fields] in *. set (q := up pos (sp_align t)) in *. fold (vsize t v) in *.
    pose proof (sp_end_ge r Hr (map vshape vs) (q + vsize t v)) as Le. pose proof (head_size_le t v Ht Hv) as Lh.
    destruct (ready_shared _ _ _ _ _ _ (a + q) (head_size t) H) as (c & b1 & E1 & G1); [lia|lia|]. unfold bbind. rewrite E1.
    destruct (IH Hr vs cs (q + vsize t v) a p b1 Hvs (ready_reads _ _ _ _ _ _ _ H (proj1 G1)) Hn Hhs Hh) as (rs & b2 & E2 & R2 & F2). rewrite E2.
    eexists _, b2. split; [reflexivity|]. split; [exact (reads_trans _ _ _ _ _ (proj1 G1) R2)|]. constructor; [|exact F2].
    refine (made_reads _ _ _ _ _ _ _ _ (made_shared _ _ _ _ _ _ _ _ _ _ _ _ H G1 _ _ _) R2); [now apply sound_obj|lia|rewrite (lay_size_sp t v Hv); lia].
  - destruct Hwf as [Hf Hr]. destruct vs as [|[] vs]; cbn [vok_flds] in Hv; try contradiction. destruct Hv as (_ & _ & Hvs).
    cbn [map vshape sp_tail sp_end al_refs_flds head_fields] in *. set (q := up pos (f_align f)) in *.
    pose proof (sp_end_ge r Hr (map vshape vs) (q + len xs * f_size f)) as Le.
    destruct (ready_shared _ _ _ _ _ _ (a + q) (len xs * f_size f) H) as (c & b1 & E1 & G1); [lia|lia|]. unfold bbind. rewrite E1.
    destruct (IH Hr vs cs (q + len xs * f_size f) a p b1 Hvs (ready_reads _ _ _ _ _ _ _ H (proj1 G1)) Hn Hhs Hh) as (rs & b2 & E2 & R2 & F2). rewrite E2.
    eexists _, b2. split; [reflexivity|]. split; [exact (reads_trans _ _ _ _ _ (proj1 G1) R2)|]. constructor; [|exact F2].
    refine (made_reads _ _ _ _ _ _ _ _ (made_shared _ _ _ _ _ _ _ _ _ _ _ _ H G1 _ _ _) R2); [exact I|lia|lia].
Qed.
Lemma layout_size t v : vok t v -> lay_size (sp_lay t (vshape v)) = vsize t v.
Proof. apply lay_size_sp. Qed.
Lemma al_refs_ok T R t v a p b : wf_ty t -> vok t v -> ready T R b p a (a + vsize t v) ->
  exists rs b', al_refs false t (sp_lay t (vshape v)) a p b = Some (rs, b') /\ reads T R b b' /\ Forall (made false T b' a (vsize t v)) rs.
Proof.
  intros Hwf Hv H. pose proof (head_size_le t v Hwf Hv) as Lh. destruct t as [f|f k|t|kd hs ha fs]; destruct v; try contradiction; cbn [al_refs vshape sp_lay].
  - destruct (ready_shared _ _ _ _ _ _ a (f_size f) H) as (c & b1 & E1 & G1); [lia|cbn [head_size] in Lh; lia|]. unfold bbind. rewrite E1.
    eexists _, b1. split; [reflexivity|]. split; [exact (proj1 G1)|]. constructor; [|constructor].
    refine (made_shared _ _ _ _ _ _ _ _ _ _ _ _ H G1 _ _ _); [exact I|lia|cbn [head_size] in Lh; lia].
  - destruct (ready_shared _ _ _ _ _ _ a (head_size (TArray f k)) H) as (d & b1 & E1 & G1); [lia|lia|]. unfold bbind at 1. rewrite E1.
    destruct (proj1 (al_layout_ok T R) (TArray f k) Hwf (VArr xs) a d b1 Hv (ready_grown _ _ _ _ _ _ _ _ _ H G1)) as (b2 & E2 & R2). unfold bbind at 1. cbn [vshape sp_lay] in E2. rewrite E2.
    pose proof (ready_reads _ _ _ _ _ _ _ (ready_reads _ _ _ _ _ _ _ H (proj1 G1)) R2) as H2.
    destruct (ready_shared _ _ _ _ _ _ (a + up (len_size k) (f_align f)) (len xs * f_size f) H2) as (c & b3 & E3 & G3); [lia|unfold vsize; cbn [vshape sp_size]; lia|]. unfold bbind. rewrite E3.
    eexists _, b3. split; [reflexivity|]. split; [exact (reads_trans _ _ _ _ _ (proj1 G1) (reads_trans _ _ _ _ _ R2 (proj1 G3)))|]. constructor; [|constructor].
    refine (made_shared _ _ _ _ _ _ _ _ _ _ _ _ H2 G3 _ _ _); [exact I|lia|unfold vsize; cbn [vshape sp_size]; lia].
  - cbn [wf_ty vok head_size] in *. change (vsize (TNew t) (VNew v)) with (vsize t v) in *.
    destruct (ready_shared _ _ _ _ _ _ a (head_size t) H) as (c & b1 & E1 & G1); [lia|lia|]. unfold bbind. rewrite E1.
    eexists _, b1. split; [reflexivity|]. split; [exact (proj1 G1)|]. constructor; [|constructor].
    refine (made_shared _ _ _ _ _ _ _ _ _ _ _ _ H G1 _ _ _); [now apply sound_obj|lia|rewrite (lay_size_sp t v Hv); lia].
  - destruct (ready_shared _ _ _ _ _ _ a (head_size (TRec kd hs ha fs)) H) as (d & b1 & E1 & G1); [lia|lia|]. unfold bbind at 1. rewrite E1.
    destruct (proj1 (al_layout_ok T R) (TRec kd hs ha fs) Hwf (VRec vs) a d b1 Hv (ready_grown _ _ _ _ _ _ _ _ _ H G1)) as (b2 & E2 & R2). unfold bbind at 1. cbn [vshape sp_lay] in E2. rewrite E2.
    destruct Hwf as (Hh & Hfs & _). cbn [vok head_size] in *. rewrite vsize_rec in *.
    destruct (al_refs_flds_ok T R (sp_end fs (map vshape vs) hs) hs fs Hfs vs _ hs a p b2 Hv) as (rs & b3 & E3 & R3 & F3).
    + exact (ready_reads _ _ _ _ _ _ _ (ready_reads _ _ _ _ _ _ _ H (proj1 G1)) R2).
    + lia.
    + lia.
    + intros off f Hi. destruct Hh as (_ & _ & _ & Hh & _). destruct (Hh off f Hi) as (_ & X & _). lia.
    + exists rs, b3. split; [exact E3|]. split; [|exact F3]. exact (reads_trans _ _ _ _ _ (proj1 G1) (reads_trans _ _ _ _ _ R2 R3)).
Qed.

(** Where the references to the fields of a record are. *)
Definition placed (fs : flds) (a lo hi : N) (r : aref) : Prop :=
  (exists off f, In (off, f) (head_fields fs) /\ r_addr r = a + off /\ r_size r = f_size f) \/ (a + lo <= r_addr r /\ r_addr r + r_size r <= a + hi).
Lemma apart_le r q : r_addr r + r_size r <= r_addr q \/ r_addr q + r_size q <= r_addr r -> refs_apart r q.
Proof. unfold refs_apart, in_ref. intros H x. lia. Qed.
Lemma al_muts_flds_ok T R U n hs : forall fs, wf_flds fs -> forall vs cs pos a p b, vok_flds fs vs cs -> ready T R b p a (a + n) ->
  (forall x, a <= x < a + n -> wr_ok T b p x) ->
  sp_end fs (map vshape vs) pos <= n -> hs <= pos -> (forall off f, In (off, f) (head_fields fs) -> off + f_size f <= hs) ->
  ForallOrdPairs hf_disjoint (head_fields fs) ->
  exists rs b', al_muts_flds false U fs (sp_tail fs (map vshape vs) pos) a p b = Some (rs, b') /\ reads T R b b' /\ Forall (made true T b' a n) rs /\
    Forall (placed fs a pos (sp_end fs (map vshape vs) pos)) rs /\ ForallOrdPairs refs_apart rs.
Proof.
  induction fs as [|off f r IH|off f r IH|t r IH|f lf r IH]; intros Hwf vs cs pos a p b Hv H Hw Hn Hhs Hh Hd.
  - exists [], b. split; [reflexivity|]. split; [apply reads_refl|repeat constructor].
  - destruct Hwf as [_ Hr]. destruct vs as [|[] vs]; cbn [vok_flds] in Hv; try contradiction. destruct Hv as [_ Hv]. cbn [map vshape sp_tail sp_end al_muts_flds head_fields] in *.
    pose proof (Hh off f (or_introl eq_refl)) as Hf. pose proof (sp_end_ge r Hr (map vshape vs) pos) as Le. inversion Hd as [|? ? Hd1 Hd2]; subst.
    destruct (ready_mut _ _ _ (U f) _ _ _ (a + off) (f_size f) H) as (c & b1 & E1 & G1); [lia|lia|]. unfold bbind. rewrite E1.
    destruct (IH Hr vs cs pos a p b1 Hv (ready_reads _ _ _ _ _ _ _ H (proj1 G1))) as (rs & b2 & E2 & R2 & F2 & P2 & D2); auto.
    { intros x Hx. apply (rd_wr _ _ _ _ (proj1 G1)); [apply H|auto]. }
    { intros; apply Hh; now right. }
    rewrite E2. eexists _, b2. split; [reflexivity|]. split; [exact (reads_trans _ _ _ _ _ (proj1 G1) R2)|]. split; [|split].
    + constructor; [|exact F2]. refine (made_reads _ _ _ _ _ _ _ _ (made_mut _ _ _ _ _ _ _ _ _ _ _ H G1 Hw _ _ _) R2); [exact I|lia|lia].
    + constructor; [left; exists off, f; cbn; auto|]. eapply Forall_impl; [|exact P2]. intros q [(off' & f' & A & C)|A]; [left; exists off', f'; cbn; auto|right; exact A].
    + constructor; [|exact D2]. rewrite Forall_forall in P2 |- *. intros q Hq. apply apart_le. cbn [r_addr r_size]. destruct (P2 q Hq) as [(off' & f' & A & -> & ->)|A].
      * rewrite Forall_forall in Hd1. specialize (Hd1 _ A). unfold hf_disjoint in Hd1. cbn [fst snd] in Hd1. lia.
      * left. lia.
  - destruct Hwf as [_ Hr]. destruct vs as [|[] vs]; cbn [vok_flds] in Hv; try contradiction. destruct Hv as [_ Hv]. cbn [map vshape sp_tail sp_end al_muts_flds head_fields] in *.
    pose proof (Hh off f (or_introl eq_refl)) as Hf. pose proof (sp_end_ge r Hr (map vshape vs) pos) as Le. inversion Hd as [|? ? Hd1 Hd2]; subst.
    destruct (ready_mut _ _ _ (U f) _ _ _ (a + off) (f_size f) H) as (d & b0 & E0 & G0); [lia|lia|]. unfold bbind. rewrite E0.
    pose proof (ready_grown _ _ _ _ _ _ _ _ _ H G0) as H0.
    destruct (ready_shared _ _ _ _ _ _ (a + off) (f_size f) H0) as (c & b1 & E1 & G1); [lia|lia|]. rewrite E1.
    pose proof (reads_trans _ _ _ _ _ (proj1 G0) (proj1 G1)) as R1.
    destruct (IH Hr vs cs pos a p b1 Hv (ready_reads _ _ _ _ _ _ _ H R1)) as (rs & b2 & E2 & R2 & F2 & P2 & D2); auto.
    { intros x Hx. apply (rd_wr _ _ _ _ R1); [apply H|auto]. }
    { intros; apply Hh; now right. }
    rewrite E2. eexists _, b2. split; [reflexivity|]. split; [exact (reads_trans _ _ _ _ _ R1 R2)|]. split; [|split].
    + constructor; [|exact F2]. refine (made_reads _ _ _ _ _ _ _ _ (made_shared _ _ _ _ _ _ _ _ _ _ _ _ H0 G1 _ _ _) R2); [exact I|lia|lia].
    + constructor; [left; exists off, f; cbn; auto|]. eapply Forall_impl; [|exact P2]. intros q [(off' & f' & A & C)|A]; [left; exists off', f'; cbn; auto|right; exact A].
    + constructor; [|exact D2]. rewrite Forall_forall in P2 |- *. intros q Hq. apply apart_le. cbn [r_addr r_size]. destruct (P2 q Hq) as [(off' & f' & A & -> & ->)|A].
      * rewrite Forall_forall in Hd1. specialize (Hd1 _ A). unfold hf_disjoint in Hd1. cbn [fst snd] in Hd1. lia.
      * left. lia.
  - destruct Hwf as [Ht Hr]. destruct vs as [|v vs]; cbn [vok_flds] in Hv; try contradiction. destruct Hv as [Hv Hvs].
    cbn [map sp_tail sp_end al_muts_flds head_fields] in *. set (q := up pos (sp_align t)) in *. fold (vsize t v) in *.
    pose proof (up_ge pos (sp_align t) (sp_align_pos t Ht)) as Lq. fold q in Lq.
    pose proof (sp_end_ge r Hr (map vshape vs) (q + vsize t v)) as Le. pose proof (head_size_le t v Ht Hv) as Lh. pose proof (lay_size_sp t v Hv) as Ls.
    destruct (ready_mut _ _ _ (unpin U t) _ _ _ (a + q) (head_size t) H) as (c & b1 & E1 & G1); [lia|lia|]. unfold bbind. rewrite E1.
    destruct (IH Hr vs cs (q + vsize t v) a p b1 Hvs (ready_reads _ _ _ _ _ _ _ H (proj1 G1))) as (rs & b2 & E2 & R2 & F2 & P2 & D2); auto; [|lia|].
    { intros x Hx. apply (rd_wr _ _ _ _ (proj1 G1)); [apply H|auto]. }
    rewrite E2. eexists _, b2. split; [reflexivity|]. split; [exact (reads_trans _ _ _ _ _ (proj1 G1) R2)|]. split; [|split].
    + constructor; [|exact F2]. refine (made_reads _ _ _ _ _ _ _ _ (made_mut _ _ _ _ _ _ _ _ _ _ _ H G1 Hw _ _ _) R2); [now apply sound_obj|lia|lia].
    + constructor; [right; cbn; lia|]. eapply Forall_impl; [|exact P2]. intros r' [A|A]; [left; exact A|right; lia].
    + constructor; [|exact D2]. rewrite Forall_forall in P2 |- *. intros r' Hq. apply apart_le. cbn [r_addr r_size]. destruct (P2 r' Hq) as [(off' & f' & A & -> & ->)|A].
      * right. specialize (Hh _ _ A). lia.
      * left. lia.
  - destruct Hwf as [Hf Hr]. destruct vs as [|[] vs]; cbn [vok_flds] in Hv; try contradiction. destruct Hv as (_ & _ & Hvs).
    cbn [map vshape sp_tail sp_end al_muts_flds head_fields] in *. set (q := up pos (f_align f)) in *.
    pose proof (up_ge pos (f_align f) (pow2_pos _ (proj1 Hf))) as Lq. fold q in Lq.
    pose proof (sp_end_ge r Hr (map vshape vs) (q + len xs * f_size f)) as Le.
    destruct (ready_mut _ _ _ (U f) _ _ _ (a + q) (len xs * f_size f) H) as (c & b1 & E1 & G1); [lia|lia|]. unfold bbind. rewrite E1.
    destruct (IH Hr vs cs (q + len xs * f_size f) a p b1 Hvs (ready_reads _ _ _ _ _ _ _ H (proj1 G1))) as (rs & b2 & E2 & R2 & F2 & P2 & D2); auto; [|lia|].
    { intros x Hx. apply (rd_wr _ _ _ _ (proj1 G1)); [apply H|auto]. }
    rewrite E2. eexists _, b2. split; [reflexivity|]. split; [exact (reads_trans _ _ _ _ _ (proj1 G1) R2)|]. split; [|split].
    + constructor; [|exact F2]. refine (made_reads _ _ _ _ _ _ _ _ (made_mut _ _ _ _ _ _ _ _ _ _ _ H G1 Hw _ _ _) R2); [exact I|lia|lia].
    + constructor; [right; cbn; lia|]. eapply Forall_impl; [|exact P2]. intros r' [A|A]; [left; exact A|right; lia].
    + constructor; [|exact D2]. rewrite Forall_forall in P2 |- *. intros r' Hq. apply apart_le. cbn [r_addr r_size]. destruct (P2 r' Hq) as [(off' & f' & A & -> & ->)|A].
      * right. specialize (Hh _ _ A). lia.
      * left. lia.
Qed.
Lemma al_muts_ok T R U t v a p b : wf_ty t -> vok t v -> ready T R b p a (a + vsize t v) -> (forall x, a <= x < a + vsize t v -> wr_ok T b p x) ->
  exists rs b', al_muts false U t (sp_lay t (vshape v)) a p b = Some (rs, b') /\ reads T R b b' /\ Forall (made true T b' a (vsize t v)) rs /\ ForallOrdPairs refs_apart rs.
Proof.
  intros Hwf Hv H Hw. pose proof (head_size_le t v Hwf Hv) as Lh. destruct t as [f|f k|t|kd hs ha fs]; destruct v; try contradiction; cbn [al_muts vshape sp_lay].
  - destruct (ready_mut _ _ _ (U f) _ _ _ a (f_size f) H) as (c & b1 & E1 & G1); [lia|cbn [head_size] in Lh; lia|]. unfold bbind. rewrite E1.
    eexists _, b1. split; [reflexivity|]. split; [exact (proj1 G1)|]. split; [|repeat constructor]. constructor; [|constructor].
    refine (made_mut _ _ _ _ _ _ _ _ _ _ _ H G1 Hw _ _ _); [exact I|lia|cbn [head_size] in Lh; lia].
  - destruct (ready_shared _ _ _ _ _ _ a (head_size (TArray f k)) H) as (d & b1 & E1 & G1); [lia|lia|]. unfold bbind at 1. rewrite E1.
    destruct (proj1 (al_layout_ok T R) (TArray f k) Hwf (VArr xs) a d b1 Hv (ready_grown _ _ _ _ _ _ _ _ _ H G1)) as (b2 & E2 & R2). unfold bbind at 1. cbn [vshape sp_lay] in E2. rewrite E2.
    pose proof (reads_trans _ _ _ _ _ (proj1 G1) R2) as R12. pose proof (ready_reads _ _ _ _ _ _ _ H R12) as H2.
    destruct (ready_mut _ _ _ (U f) _ _ _ (a + up (len_size k) (f_align f)) (len xs * f_size f) H2) as (c & b3 & E3 & G3); [lia|unfold vsize; cbn [vshape sp_size]; lia|]. unfold bbind. rewrite E3.
    eexists _, b3. split; [reflexivity|]. split; [exact (reads_trans _ _ _ _ _ R12 (proj1 G3))|]. split; [|repeat constructor]. constructor; [|constructor].
    refine (made_mut _ _ _ _ _ _ _ _ _ _ _ H2 G3 _ _ _ _); [|exact I|lia|unfold vsize; cbn [vshape sp_size]; lia].
    intros x Hx. apply (rd_wr _ _ _ _ R12); [apply H|auto].
  - cbn [wf_ty vok head_size] in *. change (vsize (TNew t) (VNew v)) with (vsize t v) in *.
    destruct (ready_mut _ _ _ (unpin U t) _ _ _ a (head_size t) H) as (c & b1 & E1 & G1); [lia|lia|]. unfold bbind. rewrite E1.
    eexists _, b1. split; [reflexivity|]. split; [exact (proj1 G1)|]. split; [|repeat constructor]. constructor; [|constructor].
    refine (made_mut _ _ _ _ _ _ _ _ _ _ _ H G1 Hw _ _ _); [now apply sound_obj|lia|rewrite (lay_size_sp t v Hv); lia].
  - destruct (ready_shared _ _ _ _ _ _ a (head_size (TRec kd hs ha fs)) H) as (d & b1 & E1 & G1); [lia|lia|]. unfold bbind at 1. rewrite E1.
    destruct (proj1 (al_layout_ok T R) (TRec kd hs ha fs) Hwf (VRec vs) a d b1 Hv (ready_grown _ _ _ _ _ _ _ _ _ H G1)) as (b2 & E2 & R2). unfold bbind at 1. cbn [vshape sp_lay] in E2. rewrite E2.
    destruct Hwf as (Hh & Hfs & _). cbn [vok head_size] in *. rewrite vsize_rec in *. pose proof (reads_trans _ _ _ _ _ (proj1 G1) R2) as R12.
    pose proof (ready_reads _ _ _ _ _ _ _ H R12) as H2.
    destruct (ready_mut _ _ _ (unpin U (TRec kd hs ha fs)) _ _ _ a hs H2) as (m & b4 & E4 & G4); [lia|lia|]. unfold bbind at 1. cbn [head_size]. rewrite E4.
    destruct (al_muts_flds_ok T R U (sp_end fs (map vshape vs) hs) hs fs Hfs vs _ hs a m b4 Hv) as (rs & b3 & E3 & R3 & F3 & _ & D3).
    + exact (ready_grown _ _ _ _ _ _ _ _ _ H2 G4).
    + intros x Hx. apply G4; [reflexivity|]. apply (rd_wr _ _ _ _ R12); [apply H|auto].
    + lia.
    + lia.
    + intros off f Hi. destruct Hh as (_ & _ & _ & Hh & _). destruct (Hh off f Hi) as (_ & X & _). lia.
    + apply Hh.
    + exists rs, b3. split; [exact E3|]. split; [exact (reads_trans _ _ _ _ _ R12 (reads_trans _ _ _ _ _ (proj1 G4) R3))|]. split; [exact F3|exact D3].
Qed.

(** ** Writing *)
(** [works T R b b']: from [b], accesses of any kind through [T] and descendants inside [R], and new tags, lead to [b']. *)
Record works (T : tag) (R : N -> Prop) (b b' : bstate) : Prop := mkWorks {
  wk_next : (br_next b <= br_next b')%nat;
  wk_bounded : bounded b -> bounded b';
  wk_rd : forall c x, below (br_next b) c -> ~ R x -> rd_ok b c x -> rd_ok b' c x;
  wk_wr : forall c D x, below (br_next b) c -> ~ R x -> wr_ok D b c x -> wr_ok D b' c x;
  wk_up : forall D x, below (br_next b) D -> under T D = true -> wr_ok D b D x -> wr_ok D b' D x }.
Lemma works_refl T R b : works T R b b.
Proof. constructor; auto. Qed.
Lemma works_trans T R b1 b2 b3 : works T R b1 b2 -> works T R b2 b3 -> works T R b1 b3.
Proof.
  intros [A1 A2 A3 A4 A5] [C1 C2 C3 C4 C5]. constructor.
  - lia.
  - auto.
  - intros c x L Hx H. apply C3; [eapply below_le; eauto|exact Hx|auto].
  - intros c D x L Hx H. apply C4; [eapply below_le; eauto|exact Hx|auto].
  - intros D x L Hu H. apply C5; [eapply below_le; eauto|exact Hu|auto].
Qed.
Lemma works_lift c T R b b' : under c T = true -> works c R b b' -> works T R b b'.
Proof. intros Hc [A1 A2 A3 A4 A5]. constructor; auto. intros D x L Hu H. apply A5; auto. now apply (under_trans c T). Qed.
Lemma reads_works T R b b' : reads T R b b' -> works T R b b'.
Proof.
  intros [A1 A2 A3 A4 A5]. constructor; auto. intros D x L Hu H. apply (wr_base T). apply A5; [exact L|]. now apply (wr_up D).
Qed.
(** Ready to write, and to read, the bytes from [lo] to [hi] through [p]. *)
Definition armed (R : N -> Prop) (b : bstate) (p : tag) (lo hi : N) : Prop :=
  bounded b /\ below (br_next b) p /\ forall x, lo <= x < hi -> R x /\ wr_ok p b p x.
Lemma armed_ready R b p lo hi : armed R b p lo hi -> ready p R b p lo hi.
Proof. intros (A & C & D). split; [exact A|]. split; [exact C|]. split; [apply under_refl|]. intros x Hx. destruct (D x Hx). split; [assumption|]. eapply wr_rd; eauto. Qed.
Lemma armed_works R b b' p lo hi : armed R b p lo hi -> works p R b b' -> armed R b' p lo hi.
Proof.
  intros (A & C & D) H. split; [now apply (wk_bounded _ _ _ _ H)|]. split; [exact (below_le _ _ _ (wk_next _ _ _ _ H) C)|].
  intros x Hx. destruct (D x Hx). split; [assumption|]. apply (wk_up _ _ _ _ H); auto. apply under_refl.
Qed.
Lemma armed_sub R b p lo hi lo' hi' : lo <= lo' -> hi' <= hi -> armed R b p lo hi -> armed R b p lo' hi'.
Proof. intros ? ? (A & C & D). split; [exact A|]. split; [exact C|]. intros x Hx. apply D. lia. Qed.
Lemma armed_mut R b un p lo hi a n : armed R b p lo hi -> lo <= a -> a + n <= hi ->
  exists c b', retag_mut false un p a n b = Some (c, b') /\ works p R b b' /\ under c p = true /\ armed R b' c lo hi.
Proof.
  intros H H1 H2. destruct (ready_mut _ _ _ un _ _ _ a n (armed_ready _ _ _ _ _ H) H1 H2) as (c & b' & E & G1 & G2 & G3 & _ & G5). exists c, b'. split; [exact E|].
  split; [now apply reads_works|]. split; [exact G3|]. destruct H as (A & C & D). split; [now apply (rd_bounded _ _ _ _ G1)|]. split; [exact G2|].
  intros x Hx. destruct (D x Hx). split; [assumption|]. apply (wr_base p). auto.
Qed.
Lemma write_ok (R : N -> Prop) b p x : R x -> wr_ok p b p x -> exists b', access Wr p x b = Some (tt, b') /\ works p R b b' /\ br_next b' = br_next b.
Proof.
  intros HR Hw. destruct (access_some Wr p x (br_perms b)) as [l E].
  { intros u π Hi Hu. destruct (Hw u π Hi Hu) as [[_ [-> | ->]]| ->]; discriminate. }
  unfold access. rewrite E. eexists. split; [reflexivity|]. split; [|reflexivity]. pose proof (access_back Wr _ x _ _ E) as Hb. constructor; cbn.
  - lia.
  - intros HB u π' Hi. destruct (Hb u π' Hi) as (π & Hi' & _). exact (HB u π Hi').
  - intros c y _ Hy Hc u π' Hi Hu. destruct (Hb u π' Hi) as (π & Hi' & H1 & _). rewrite H1; [now apply (Hc u)|]. intros ->. contradiction.
  - intros c D y _ Hy Hc u π' Hi Hu. destruct (Hb u π' Hi) as (π & Hi' & H1 & _). rewrite H1; [now apply Hc|]. intros ->. contradiction.
  - intros D y _ Hu HD u π' Hi HDu. destruct (Hb u π' Hi) as (π & Hi' & H1 & H2 & _). destruct (N.eq_dec y x) as [->|Ny]; [|rewrite H1 by exact Ny; now apply HD].
    left. split; [exact HDu|]. right. specialize (H2 (under_trans _ _ _ Hu HDu)). destruct (π x); cbn in H2; congruence.
Qed.
Lemma write_list_ok (R : N -> Prop) p xs : forall b, bounded b -> below (br_next b) p -> (forall x, In x xs -> R x /\ wr_ok p b p x) ->
  exists b', access_list Wr p xs b = Some (tt, b') /\ works p R b b'.
Proof.
  induction xs as [|x xs IH]; intros b HB L H; cbn [access_list]; [exists b; split; [reflexivity|apply works_refl]|].
  destruct (H x (or_introl eq_refl)) as [H1 H2]. destruct (write_ok R b p x H1 H2) as (b1 & E1 & W1 & N1). unfold bbind. rewrite E1.
  destruct (IH b1) as (b2 & E2 & W2).
  - now apply (wk_bounded _ _ _ _ W1).
  - now rewrite N1.
  - intros y Hy. destruct (H y (or_intror Hy)). split; [assumption|]. apply (wk_up _ _ _ _ W1); auto. apply under_refl.
  - exists b2. split; [exact E2|]. exact (works_trans _ _ _ _ _ W1 W2).
Qed.
Lemma armed_write R b p lo hi a n : armed R b p lo hi -> lo <= a -> a + n <= hi -> exists b', access_range Wr p a n b = Some (tt, b') /\ works p R b b'.
Proof. intros (A & C & D) ? ?. apply write_list_ok; auto. intros x Hx. apply in_range in Hx. apply D. lia. Qed.
Lemma armed_use R b p lo hi a n : armed R b p lo hi -> lo <= a -> a + n <= hi -> exists b', use_all p a n b = Some (tt, b') /\ works p R b b'.
Proof.
  intros H H1 H2. unfold use_all, bbind. destruct (ready_range _ _ _ _ _ _ a n (armed_ready _ _ _ _ _ H) H1 H2) as (b1 & E1 & R1). rewrite E1. apply reads_works in R1.
  destruct (armed_write _ _ _ _ _ a n (armed_works _ _ _ _ _ _ H R1) H1 H2) as (b2 & E2 & W2). exists b2. split; [exact E2|]. exact (works_trans _ _ _ _ _ R1 W2).
Qed.
Lemma al_drop_ok R U f b p lo hi a n : armed R b p lo hi -> lo <= a -> a + n <= hi -> exists b', al_drop false U f a n p b = Some (tt, b') /\ works p R b b'.
Proof.
  intros H H1 H2. unfold al_drop. destruct (f_drop f); [|exists b; split; [reflexivity|apply works_refl]]. unfold bbind.
  destruct (armed_mut _ _ (U f) _ _ _ a n H H1 H2) as (c & b1 & E1 & W1 & U1 & A1). rewrite E1. destruct (armed_use _ _ _ _ _ a n A1 H1 H2) as (b2 & E2 & W2).
  exists b2. split; [exact E2|]. exact (works_trans _ _ _ _ _ W1 (works_lift _ _ _ _ _ U1 W2)).
Qed.
Lemma al_vdrop_ok R U :
  (forall t, wf_ty t -> forall v a p b, vok t v -> armed R b p a (a + vsize t v) ->
     exists b', al_vdrop false U t (sp_lay t (vshape v)) a p b = Some (tt, b') /\ works p R b b') /\
  (forall fs, wf_flds fs -> forall vs cs pos hs n a p b, vok_flds fs vs cs -> armed R b p a (a + n) -> sp_end fs (map vshape vs) pos <= n -> hs <= n ->
     (forall off f, In (off, f) (head_fields fs) -> off + f_size f <= hs) ->
     exists b', al_vdrop_flds false U fs (sp_tail fs (map vshape vs) pos) a p b = Some (tt, b') /\ works p R b b').
Proof.
  apply vty_flds_ind.
  - intros f Hwf v a p b Hv H. destruct v; try contradiction. cbn [al_vdrop]. apply (al_drop_ok _ _ _ _ _ _ _ _ _ H); [lia|]. unfold vsize; cbn; lia.
  - intros f k Hwf v a p b Hv H. destruct v; try contradiction. cbn [al_vdrop vshape sp_lay]. apply (al_drop_ok _ _ _ _ _ _ _ _ _ H); [lia|]. unfold vsize; cbn [vshape sp_size]; lia.
  - intros t IH Hwf v a p b Hv H. destruct v; try contradiction. cbn [wf_ty vok] in *. cbn [al_vdrop vshape sp_lay]. change (vsize (TNew t) (VNew v)) with (vsize t v) in H.
    destruct (needs_vdrop t); [|exists b; split; [reflexivity|apply works_refl]]. pose proof (head_size_le t v Hwf Hv) as L. unfold bbind.
    destruct (armed_mut _ _ (unpin U t) _ _ _ a (head_size t) H) as (c & b1 & E1 & W1 & U1 & A1); [lia|lia|]. rewrite E1.
    destruct (IH Hwf v a c b1 Hv A1) as (b2 & E2 & W2). exists b2. split; [exact E2|]. exact (works_trans _ _ _ _ _ W1 (works_lift _ _ _ _ _ U1 W2)).
  - intros kd hs ha fs IH (Hh & Hfs & _) v a p b Hv H. destruct v; try contradiction. cbn [vok] in *. cbn [al_vdrop vshape sp_lay]. rewrite vsize_rec in H.
    assert (G : exists b', al_vdrop_flds false U fs (sp_tail fs (map vshape vs) hs) a p b = Some (tt, b') /\ works p R b b').
    { apply (IH Hfs vs _ hs hs _ a p b Hv H); [lia|apply sp_end_ge; exact Hfs|]. intros off f Hi. destruct Hh as (_ & _ & _ & Hh & _). destruct (Hh off f Hi) as (_ & X & _). lia. }
    destruct kd; auto. destruct (fneeds fs); auto. exists b. split; [reflexivity|apply works_refl].
  - intros _ vs cs pos hs n a p b _ _ _ _ _. exists b. split; [reflexivity|apply works_refl].
  - intros off f r IH [_ Hr] vs cs pos hs n a p b Hv H Hn Hhs Hh. destruct vs as [|[] vs]; cbn [vok_flds] in Hv; try contradiction. destruct Hv as [_ Hv].
    cbn [map vshape sp_tail sp_end al_vdrop_flds head_fields] in *. pose proof (Hh off f (or_introl eq_refl)) as Hf.
    destruct (al_drop_ok _ U f _ _ _ _ (a + off) (f_size f) H) as (b1 & E1 & W1); [lia|lia|]. unfold bbind. rewrite E1.
    destruct (IH Hr vs cs pos hs n a p b1 Hv (armed_works _ _ _ _ _ _ H W1) Hn Hhs) as (b2 & E2 & W2); [intros; apply Hh; now right|].
    exists b2. split; [exact E2|]. exact (works_trans _ _ _ _ _ W1 W2).
  - intros off f r IH [_ Hr] vs cs pos hs n a p b Hv H Hn Hhs Hh. destruct vs as [|[] vs]; cbn [vok_flds] in Hv; try contradiction. destruct Hv as [_ Hv].
    cbn [map vshape sp_tail sp_end al_vdrop_flds head_fields] in *. pose proof (Hh off f (or_introl eq_refl)) as Hf.
    destruct (al_drop_ok _ U f _ _ _ _ (a + off) (f_size f) H) as (b1 & E1 & W1); [lia|lia|]. unfold bbind. rewrite E1.
    destruct (IH Hr vs cs pos hs n a p b1 Hv (armed_works _ _ _ _ _ _ H W1) Hn Hhs) as (b2 & E2 & W2); [intros; apply Hh; now right|].
    exists b2. split; [exact E2|]. exact (works_trans _ _ _ _ _ W1 W2).
  - intros t IHt r IH [Ht Hr] vs cs pos hs n a p b Hv H Hn Hhs Hh. destruct vs as [|v vs]; cbn [vok_flds] in Hv; try contradiction. destruct Hv as [Hv Hvs].
    cbn [map sp_tail sp_end al_vdrop_flds head_fields] in *. set (q := up pos (sp_align t)) in *. fold (vsize t v) in *.
    pose proof (sp_end_ge r Hr (map vshape vs) (q + vsize t v)) as Le. pose proof (head_size_le t v Ht Hv) as Lh.
    destruct (armed_mut _ _ (unpin U t) _ _ _ (a + q) (head_size t) H) as (c & b1 & E1 & W1 & U1 & A1); [lia|lia|]. unfold bbind. rewrite E1.
    destruct (IHt Ht v (a + q) c b1 Hv) as (b2 & E2 & W2); [refine (armed_sub _ _ _ _ _ _ _ _ _ A1); lia|]. rewrite E2.
    pose proof (works_trans _ _ _ _ _ W1 (works_lift _ _ _ _ _ U1 W2)) as W12.
    destruct (IH Hr vs cs _ hs n a p b2 Hvs (armed_works _ _ _ _ _ _ H W12) Hn Hhs Hh) as (b3 & E3 & W3). exists b3. split; [exact E3|]. exact (works_trans _ _ _ _ _ W12 W3).
  - intros f lf r IH [Hf Hr] vs cs pos hs n a p b Hv H Hn Hhs Hh. destruct vs as [|[] vs]; cbn [vok_flds] in Hv; try contradiction. destruct Hv as (_ & _ & Hvs).
    cbn [map vshape sp_tail sp_end al_vdrop_flds head_fields] in *. set (q := up pos (f_align f)) in *.
    pose proof (sp_end_ge r Hr (map vshape vs) (q + len xs * f_size f)) as Le.
    destruct (al_drop_ok _ U f _ _ _ _ (a + q) (len xs * f_size f) H) as (b1 & E1 & W1); [lia|lia|]. unfold bbind. rewrite E1.
    destruct (IH Hr vs cs _ hs n a p b1 Hvs (armed_works _ _ _ _ _ _ H W1) Hn Hhs Hh) as (b2 & E2 & W2). exists b2. split; [exact E2|]. exact (works_trans _ _ _ _ _ W1 W2).
Qed.
Lemma al_init_ok R U :
  (forall t, wf_ty t -> forall v a p b, vok t v -> armed R b p a (a + vsize t v) ->
     exists b', al_init false U t (sp_lay t (vshape v)) a p b = Some (tt, b') /\ works p R b b') /\
  (forall fs, wf_flds fs -> forall vs cs pos n a p b, vok_flds fs vs cs -> armed R b p a (a + n) -> sp_end fs (map vshape vs) pos <= n ->
     exists b', al_init_flds false U fs (sp_tail fs (map vshape vs) pos) a p b = Some (tt, b') /\ works p R b b').
Proof.
  apply vty_flds_ind.
  - intros f Hwf v a p b Hv H. destruct v; try contradiction. cbn [al_init]. apply (armed_write _ _ _ _ _ _ _ H); [lia|]. unfold vsize; cbn; lia.
  - intros f k Hwf v a p b Hv H. pose proof (head_size_le _ _ Hwf Hv) as Lh. destruct v; try contradiction. cbn [al_init vshape sp_lay head_size] in *. unfold bbind.
    assert (L : a + up (len_size k) (f_align f) + len xs * f_size f <= a + vsize (TArray f k) (VArr xs)) by (unfold vsize; cbn [vshape sp_size]; lia).
    destruct (armed_mut _ _ (U f) _ _ _ (a + up (len_size k) (f_align f)) (len xs * f_size f) H) as (c & b1 & E1 & W1 & U1 & A1); [lia|exact L|]. rewrite E1.
    destruct (armed_write _ _ _ _ _ (a + up (len_size k) (f_align f)) (len xs * f_size f) A1) as (b2 & E2 & W2); [lia|exact L|]. rewrite E2.
    pose proof (works_trans _ _ _ _ _ W1 (works_lift _ _ _ _ _ U1 W2)) as W12.
    destruct (armed_write _ _ _ _ _ a (len_size k) (armed_works _ _ _ _ _ _ H W12)) as (b3 & E3 & W3); [lia|lia|]. exists b3. split; [exact E3|]. exact (works_trans _ _ _ _ _ W12 W3).
  - intros t IH Hwf v a p b Hv H. destruct v; try contradiction. cbn [wf_ty vok] in *. cbn [al_init vshape sp_lay]. change (vsize (TNew t) (VNew v)) with (vsize t v) in H. now apply IH.
  - intros kd hs ha fs IH (Hh & Hfs & _) v a p b Hv H. destruct v; try contradiction. cbn [vok] in *. cbn [al_init vshape sp_lay]. rewrite vsize_rec in H. unfold bbind.
    pose proof (sp_end_ge fs Hfs (map vshape vs) hs) as Le.
    destruct (IH Hfs vs _ hs _ a p b Hv H) as (b1 & E1 & W1); [lia|]. rewrite E1.
    destruct (armed_write _ _ _ _ _ a hs (armed_works _ _ _ _ _ _ H W1)) as (b2 & E2 & W2); [lia|lia|]. exists b2. split; [exact E2|]. exact (works_trans _ _ _ _ _ W1 W2).
  - intros _ vs cs pos n a p b _ _ _. exists b. split; [reflexivity|apply works_refl].
  - intros off f r IH [_ Hr] vs cs pos n a p b Hv H Hn. destruct vs as [|[] vs]; cbn [vok_flds] in Hv; try contradiction. destruct Hv as [_ Hv]. exact (IH Hr vs cs pos n a p b Hv H Hn).
  - intros off f r IH [_ Hr] vs cs pos n a p b Hv H Hn. destruct vs as [|[] vs]; cbn [vok_flds] in Hv; try contradiction. destruct Hv as [_ Hv]. exact (IH Hr vs cs pos n a p b Hv H Hn).
  - intros t IHt r IH [Ht Hr] vs cs pos n a p b Hv H Hn. destruct vs as [|v vs]; cbn [vok_flds] in Hv; try contradiction. destruct Hv as [Hv Hvs].
    cbn [map sp_tail sp_end al_init_flds] in *. set (q := up pos (sp_align t)) in *. fold (vsize t v) in *.
    pose proof (sp_end_ge r Hr (map vshape vs) (q + vsize t v)) as Le. unfold bbind.
    destruct (IHt Ht v (a + q) p b Hv) as (b1 & E1 & W1); [refine (armed_sub _ _ _ _ _ _ _ _ _ H); lia|]. rewrite E1.
    destruct (IH Hr vs cs _ n a p b1 Hvs (armed_works _ _ _ _ _ _ H W1) Hn) as (b3 & E3 & W3). exists b3. split; [exact E3|]. exact (works_trans _ _ _ _ _ W1 W3).
  - intros f lf r IH [Hf Hr] vs cs pos n a p b Hv H Hn. destruct vs as [|[] vs]; cbn [vok_flds] in Hv; try contradiction. destruct Hv as (_ & _ & Hvs).
    cbn [map vshape sp_tail sp_end al_init_flds] in *. set (q := up pos (f_align f)) in *.
    pose proof (sp_end_ge r Hr (map vshape vs) (q + len xs * f_size f)) as Le. unfold bbind.
    destruct (armed_mut _ _ (U f) _ _ _ (a + q) (len xs * f_size f) H) as (c & b1 & E1 & W1 & U1 & A1); [lia|lia|]. rewrite E1.
    destruct (armed_write _ _ _ _ _ (a + q) (len xs * f_size f) A1) as (b2 & E2 & W2); [lia|lia|]. rewrite E2.
    pose proof (works_trans _ _ _ _ _ W1 (works_lift _ _ _ _ _ U1 W2)) as W12.
    destruct (IH Hr vs cs _ n a p b2 Hvs (armed_works _ _ _ _ _ _ H W12) Hn) as (b3 & E3 & W3). exists b3. split; [exact E3|]. exact (works_trans _ _ _ _ _ W12 W3).
Qed.
Lemma al_free_ok R U (d : bool) t v a p b : wf_ty t -> vok t v -> armed R b p a (a + vsize t v) ->
  exists b', al_free false U d t (sp_lay t (vshape v)) a p b = Some (tt, b') /\ works p R b b'.
Proof.
  intros Hwf Hv H. pose proof (head_size_le t v Hwf Hv) as Lh. pose proof (lay_size_sp t v Hv) as Ls. unfold al_free.
  pose proof (armed_ready _ _ _ _ _ H) as H0.
  destruct (ready_shared _ _ _ _ _ _ a (head_size t) H0) as (c & b1 & E1 & G1); [lia|lia|]. unfold bbind at 1. rewrite E1.
  destruct (proj1 (al_layout_ok p R) t Hwf v a c b1 Hv (ready_grown _ _ _ _ _ _ _ _ _ H0 G1)) as (b2 & E2 & R2). unfold bbind at 1. rewrite E2.
  pose proof (reads_works _ _ _ _ (reads_trans _ _ _ _ _ (proj1 G1) R2)) as W2. pose proof (armed_works _ _ _ _ _ _ H W2) as H2.
  destruct (armed_mut _ _ (unpin U t) _ _ _ a (head_size t) H2) as (e & b3 & E3 & W3 & U3 & A3); [lia|lia|]. unfold bbind at 1. rewrite E3.
  destruct (proj1 (al_vdrop_ok R U) t Hwf v a e b3 Hv A3) as (b4 & E4 & W4). unfold bbind. rewrite E4.
  pose proof (works_trans _ _ _ _ _ W2 (works_trans _ _ _ _ _ W3 (works_lift _ _ _ _ _ U3 W4))) as W. destruct d.
  - destruct (armed_write _ _ _ _ _ a (lay_size (sp_lay t (vshape v))) (armed_works _ _ _ _ _ _ H W)) as (b5 & E5 & W5); [lia|lia|]. exists b5. split; [exact E5|]. exact (works_trans _ _ _ _ _ W W5).
  - exists b4. split; [reflexivity|exact W].
Qed.
Lemma al_assign_ok R p a hi cs : forall b, armed R b p a hi -> (forall off f, In (off, f) cs -> a + off + f_size f <= hi) ->
  exists b', al_assign cs a p b = Some (tt, b') /\ works p R b b'.
Proof.
  induction cs as [|[off f] cs IH]; intros b H Hc; cbn [al_assign]; [exists b; split; [reflexivity|apply works_refl]|].
  destruct (armed_use _ _ _ _ _ (a + off) (f_size f) H) as (b1 & E1 & W1); [lia|apply Hc; now left|]. unfold bbind. rewrite E1.
  destruct (IH b1 (armed_works _ _ _ _ _ _ H W1)) as (b2 & E2 & W2); [intros; apply Hc; now right|]. exists b2. split; [exact E2|]. exact (works_trans _ _ _ _ _ W1 W2).
Qed.
Lemma al_set_ok R U hs ha fs vs a p b : wf_ty (TRec KStruct hs ha fs) -> armed R b p a (a + vsize (TRec KStruct hs ha fs) (VRec vs)) ->
  exists b', al_set false U (TRec KStruct hs ha fs) a p b = Some (tt, b') /\ works p R b b'.
Proof.
  intros (Hh & Hfs & _) H. rewrite vsize_rec in H. pose proof (sp_end_ge fs Hfs (map vshape vs) hs) as Le. cbn [al_set head_size].
  assert (Hc : forall off f, In (off, f) (ctrl_fields fs) -> a + off + f_size f <= a + sp_end fs (map vshape vs) hs).
  { intros off f Hi. destruct Hh as (_ & _ & _ & Hh & _). destruct (Hh off f (ctrl_head _ _ Hi)) as (_ & X & _). lia. }
  destruct (al_ctrls_ok p R (ctrl_fields fs) a p b _ (armed_ready _ _ _ _ _ H) Hc) as (b1 & E1 & R1). unfold bbind. rewrite E1. apply reads_works in R1.
  pose proof (armed_works _ _ _ _ _ _ H R1) as H1.
  destruct (armed_mut _ _ (unpin U (TRec KStruct hs ha fs)) _ _ _ a hs H1) as (m & b2 & E2 & W2 & U2 & A2); [lia|lia|]. rewrite E2.
  destruct (al_assign_ok R m a _ (ctrl_fields fs) b2 A2 Hc) as (b3 & E3 & W3). exists b3. split; [exact E3|].
  exact (works_trans _ _ _ _ _ R1 (works_trans _ _ _ _ _ W2 (works_lift _ _ _ _ _ U2 W3))).
Qed.
Lemma al_copy_ok T R t v a p b : wf_ty t -> vok t v -> ready T R b p a (a + vsize t v) ->
  exists b', al_copy false t (sp_lay t (vshape v)) a p b = Some (tt, b') /\ reads T R b b'.
Proof.
  intros Hwf Hv H. pose proof (head_size_le t v Hwf Hv) as Lh. pose proof (lay_size_sp t v Hv) as Ls. unfold al_copy.
  destruct (ready_shared _ _ _ _ _ _ a (head_size t) H) as (c & b1 & E1 & G1); [lia|lia|]. unfold bbind at 1. rewrite E1. pose proof (ready_grown _ _ _ _ _ _ _ _ _ H G1) as H1.
  destruct (ready_shared _ _ _ _ _ _ a (head_size t) H1) as (d & b2 & E2 & G2); [lia|lia|]. unfold bbind at 1. rewrite E2.
  destruct (proj1 (al_layout_ok T R) t Hwf v a d b2 Hv (ready_grown _ _ _ _ _ _ _ _ _ H1 G2)) as (b3 & E3 & R3). unfold bbind. rewrite E3.
  pose proof (reads_trans _ _ _ _ _ (proj1 G2) R3) as R23.
  destruct (ready_range _ _ _ _ _ _ a (lay_size (sp_lay t (vshape v))) (ready_reads _ _ _ _ _ _ _ H1 R23)) as (b4 & E4 & R4); [lia|lia|]. exists b4. split; [exact E4|].
  exact (reads_trans _ _ _ _ _ (proj1 G1) (reads_trans _ _ _ _ _ R23 R4)).
Qed.

(** ** Clients *)
(** The borrow that borrow [j] was made from, and all those before. *)
Definition from_of (ls : list loan) (j : nat) : option nat := match nth_error ls j with Some l => ln_from l | None => None end.
Inductive anc (F : nat -> option nat) (i j : nat) : Prop :=
| anc_one : F j = Some i -> anc F i j
| anc_more : forall k, F j = Some k -> anc F i k -> anc F i j.
Lemma anc_mono (F G : nat -> option nat) i j : (forall j i, F j = Some i -> G j = Some i) -> anc F i j -> anc G i j.
Proof. intros H A. induction A; [apply anc_one; auto|eapply anc_more; eauto]. Qed.
Record ainv (b : bstate) (ls : list loan) : Prop := mkAinv {
  ai_bounded : bounded b;
  ai_ref : forall i r f, nth_error ls i = Some (mkLn r f true) ->
    below (br_next b) (r_tag r) /\ sound_ref r /\ forall x, in_ref x r -> can (r_mut r) b (r_tag r) x;
  ai_from : forall i r j, nth_error ls i = Some (mkLn r (Some j) true) ->
    exists q g, nth_error ls j = Some (mkLn q g true) /\ (r_mut r = true -> r_mut q = true) /\ under (r_tag r) (r_tag q) = true;
  ai_pair : forall i j r q f g, i <> j -> nth_error ls i = Some (mkLn r f true) -> nth_error ls j = Some (mkLn q g true) ->
    anc (from_of ls) i j \/ anc (from_of ls) j i \/ refs_apart r q \/ (r_mut r = false /\ r_mut q = false) }.
(** The borrow of [i] on the way to [k]. *)
Lemma anc_via b ls i k r f : ainv b ls -> anc (from_of ls) i k -> nth_error ls k = Some (mkLn r f true) ->
  exists j q, nth_error ls j = Some (mkLn q (Some i) true) /\ (r_mut r = true -> r_mut q = true) /\ under (r_tag r) (r_tag q) = true.
Proof.
  intros I A. revert r f. induction A as [j H|j m H A IH]; intros r f Hk; unfold from_of in H; rewrite Hk in H; cbn in H; subst f.
  - exists j, r. split; [exact Hk|]. split; [auto|apply under_refl].
  - destruct (ai_from _ _ I _ _ _ Hk) as (q & g & Hm & Hq & Hu). destruct (IH q g Hm) as (j' & q' & A1 & A2 & A3). exists j', q'. split; [exact A1|]. split; [auto|]. now apply (under_trans _ (r_tag q)).
Qed.
Lemma anc_under b ls i k r f q g : ainv b ls -> anc (from_of ls) i k -> nth_error ls k = Some (mkLn r f true) -> nth_error ls i = Some (mkLn q g true) ->
  under (r_tag r) (r_tag q) = true /\ (r_mut r = true -> r_mut q = true).
Proof.
  intros I A Hk Hi. destruct (anc_via _ _ _ _ _ _ I A Hk) as (j & q' & H1 & H2 & H3). destruct (ai_from _ _ I _ _ _ H1) as (q2 & g2 & H4 & H5 & H6).
  rewrite Hi in H4. injection H4 as <- <-. split; [now apply (under_trans _ (r_tag q'))|auto].
Qed.
Lemma in_ref_dec x r : in_ref x r \/ ~ in_ref x r.
Proof. unfold in_ref. lia. Qed.
(** Reading through a borrow that is not mutably borrowed from. *)
Lemma keep_inv b b' ls j r f : ainv b ls -> nth_error ls j = Some (mkLn r f true) -> shared_only ls j ->
  reads (r_tag r) (fun x => in_ref x r) b b' -> ainv b' ls.
Proof.
  intros I Hj Hs HR. constructor.
  - apply (rd_bounded _ _ _ _ HR), I.
  - intros i q g Hi. destruct (ai_ref _ _ I _ _ _ Hi) as (A & C & D). split; [exact (below_le _ _ _ (rd_next _ _ _ _ HR) A)|]. split; [exact C|].
    intros x Hx. specialize (D x Hx). destruct (r_mut q) eqn:Em; cbn [can] in *; [|now apply (rd_keep _ _ _ _ HR)].
    destruct (in_ref_dec x r) as [Hr|Hr]; [|now apply (rd_out _ _ _ _ HR)].
    assert (Hu : under (r_tag r) (r_tag q) = true).
    { destruct (Nat.eq_dec i j) as [->|Hn]; [rewrite Hi in Hj; injection Hj as -> ->; apply under_refl|].
      destruct (ai_pair _ _ I i j q r g f Hn Hi Hj) as [X|[X|[X|[X _]]]].
      - exact (proj1 (anc_under _ _ _ _ _ _ _ _ I X Hj Hi)).
      - destruct (anc_via _ _ _ _ _ _ I X Hi) as (k & q' & H1 & H2 & _). rewrite (Hs _ _ H1) in H2. specialize (H2 Em). discriminate.
      - destruct (X x Hx Hr).
      - congruence. }
    apply (wr_base (r_tag r)). apply (rd_wr _ _ _ _ HR); [exact A|]. now apply (wr_up (r_tag q)).
  - apply I.
  - apply I.
Qed.
(** Working through a mutable borrow that is not borrowed from. *)
Lemma live_armed b ls i r f : ainv b ls -> nth_error ls i = Some (mkLn r f true) -> r_mut r = true -> armed (fun x => in_ref x r) b (r_tag r) (r_addr r) (r_addr r + r_size r).
Proof.
  intros I Hi Hm. destruct (ai_ref _ _ I _ _ _ Hi) as (A & _ & D). rewrite Hm in D. split; [apply I|]. split; [exact A|]. intros x Hx. split; [exact Hx|]. exact (D x Hx).
Qed.
Lemma work_inv b b' ls j r f : ainv b ls -> nth_error ls j = Some (mkLn r f true) -> r_mut r = true -> not_borrowed ls j ->
  works (r_tag r) (fun x => in_ref x r) b b' -> ainv b' ls.
Proof.
  intros I Hj Hm Hn HW. constructor.
  - apply (wk_bounded _ _ _ _ HW), I.
  - intros i q g Hi. destruct (ai_ref _ _ I _ _ _ Hi) as (A & C & D). split; [exact (below_le _ _ _ (wk_next _ _ _ _ HW) A)|]. split; [exact C|].
    intros x Hx. specialize (D x Hx). destruct (in_ref_dec x r) as [Hr|Hr].
    2: { destruct (r_mut q); cbn [can] in *; [now apply (wk_wr _ _ _ _ HW)|now apply (wk_rd _ _ _ _ HW)]. }
    assert (Hu : under (r_tag r) (r_tag q) = true /\ r_mut q = true).
    { destruct (Nat.eq_dec i j) as [->|Hne]; [rewrite Hi in Hj; injection Hj as -> ->; split; [apply under_refl|exact Hm]|].
      destruct (ai_pair _ _ I i j q r g f Hne Hi Hj) as [X|[X|[X|[_ X]]]].
      - destruct (anc_under _ _ _ _ _ _ _ _ I X Hj Hi) as [H1 H2]. auto.
      - destruct (anc_via _ _ _ _ _ _ I X Hi) as (k & q' & H1 & _). destruct (Hn _ _ H1).
      - destruct (X x Hx Hr).
      - congruence. }
    destruct Hu as [Hu Hq]. rewrite Hq in *. cbn [can] in *. now apply (wk_up _ _ _ _ HW).
  - apply I.
  - apply I.
Qed.
Lemma from_app ls ms j i : from_of ls j = Some i -> from_of (ls ++ ms) j = Some i.
Proof.
  unfold from_of. destruct (nth_error ls j) eqn:E; [|discriminate]. intros H. rewrite nth_error_app1; [now rewrite E|]. apply nth_error_Some. congruence.
Qed.
(** New borrows [rs] from [f]. *)
Lemma add_inv b f rs : forall ls, ainv b ls ->
  Forall (fun r => below (br_next b) (r_tag r) /\ sound_ref r /\ forall x, in_ref x r -> can (r_mut r) b (r_tag r) x) rs ->
  (forall j, f = Some j -> exists q g, nth_error ls j = Some (mkLn q g true) /\ Forall (fun r => (r_mut r = true -> r_mut q = true) /\ under (r_tag r) (r_tag q) = true) rs) ->
  ForallOrdPairs (fun r q => refs_apart r q \/ (r_mut r = false /\ r_mut q = false)) rs ->
  (forall i q g, nth_error ls i = Some (mkLn q g true) -> f = Some i \/ (exists k, f = Some k /\ anc (from_of ls) i k) \/
     Forall (fun r => refs_apart q r \/ (r_mut q = false /\ r_mut r = false)) rs) ->
  ainv b (ls ++ map (fun r => mkLn r f true) rs).
Proof.
  induction rs as [|r rs IH]; intros ls I Hr Hf Hp Hrel; cbn [map]; [now rewrite app_nil_r|].
  replace (ls ++ mkLn r f true :: map (fun r => mkLn r f true) rs) with ((ls ++ [mkLn r f true]) ++ map (fun r => mkLn r f true) rs) by (now rewrite <- app_assoc).
  inversion Hr as [|? ? Hr1 Hr2]; subst. inversion Hp as [|? ? Hp1 Hp2]; subst.
  assert (Hold : forall i l, nth_error (ls ++ [mkLn r f true]) i = Some l -> nth_error ls i = Some l \/ (i = length ls /\ l = mkLn r f true)).
  { intros i l Hi. destruct (Nat.lt_ge_cases i (length ls)) as [L|L]; [rewrite nth_error_app1 in Hi by exact L; now left|]. rewrite nth_error_app2 in Hi by exact L. right.
    destruct (i - length ls)%nat as [|[|]] eqn:E; cbn in Hi; try discriminate. injection Hi as <-. split; [lia|reflexivity]. }
  assert (Happ : forall i l, nth_error ls i = Some l -> nth_error (ls ++ [mkLn r f true]) i = Some l).
  { intros i l Hi. rewrite nth_error_app1; [exact Hi|]. apply nth_error_Some. congruence. }
  assert (Hmono : forall i j, anc (from_of ls) i j -> anc (from_of (ls ++ [mkLn r f true])) i j).
  { intros i j. apply anc_mono. intros j' i'. apply from_app. }
  assert (Hnew : from_of (ls ++ [mkLn r f true]) (length ls) = f).
  { unfold from_of. rewrite nth_error_app2 by lia. rewrite Nat.sub_diag. reflexivity. }
  assert (Hrel1 : forall i q g, nth_error ls i = Some (mkLn q g true) ->
    anc (from_of (ls ++ [mkLn r f true])) i (length ls) \/ refs_apart q r \/ (r_mut q = false /\ r_mut r = false)).
  { intros i q g Hi. destruct (Hrel i q g Hi) as [X|[(k & X & Y)|X]].
    - left. apply anc_one. congruence.
    - left. apply (anc_more _ _ _ k); [congruence|auto].
    - inversion X; subst. auto. }
  apply IH.
  - constructor.
    + apply I.
    + intros i q g Hi. destruct (Hold _ _ Hi) as [Hi'|[-> X]]; [exact (ai_ref _ _ I _ _ _ Hi')|]. injection X as -> ->. exact Hr1.
    + intros i q j Hi. destruct (Hold _ _ Hi) as [Hi'|[-> X]].
      * destruct (ai_from _ _ I _ _ _ Hi') as (q' & g' & X1 & X2). exists q', g'. split; [auto|exact X2].
      * injection X as -> <-. destruct (Hf j eq_refl) as (q' & g' & X1 & X2). exists q', g'. split; [auto|]. now inversion X2.
    + intros i j q q' g g' Hn Hi Hj. destruct (Hold _ _ Hi) as [Hi'|[-> X]]; destruct (Hold _ _ Hj) as [Hj'|[-> Y]].
      * destruct (ai_pair _ _ I i j q q' g g' Hn Hi' Hj') as [Z|[Z|Z]]; auto.
      * injection Y as -> ->. destruct (Hrel1 i q g Hi') as [Z|Z]; auto.
      * injection X as -> ->. destruct (Hrel1 j q' g' Hj') as [Z|[Z|[Z1 Z2]]]; auto. right. right. left. intros x H1 H2. exact (Z x H2 H1).
      * lia.
  - exact Hr2.
  - intros j E. destruct (Hf j E) as (q & g & X1 & X2). exists q, g. split; [auto|]. now inversion X2.
  - exact Hp2.
  - intros i q g Hi. destruct (Hold _ _ Hi) as [Hi'|[-> X]].
    + destruct (Hrel i q g Hi') as [X|[(k & X & Y)|X]]; auto. { right. left. exists k. auto. } right. right. now inversion X.
    + injection X as -> ->. right. right. exact Hp1.
Qed.
Lemma nth_update_inv {A} (l : list A) i (x y : A) j : nth_error (update l i x) j = Some y -> (j = i /\ y = x) \/ (j <> i /\ nth_error l j = Some y).
Proof.
  revert i j. induction l as [|z l IH]; intros [|i] [|j]; cbn; try discriminate; intros H.
  - injection H as <-. auto.
  - right. split; [lia|exact H].
  - right. split; [lia|exact H].
  - destruct (IH i j H) as [[-> ->]|[X Y]]; [auto|]. right. split; [lia|exact Y].
Qed.
Lemma from_update ls i r from r' v v' : nth_error ls i = Some (mkLn r from v) -> forall j, from_of (update ls i (mkLn r' from v')) j = from_of ls j.
Proof.
  intros Hi j. unfold from_of. revert i j Hi. induction ls as [|l ls IH]; intros [|i] [|j]; cbn; try reflexivity; try discriminate; intros Hi.
  - injection Hi as ->. reflexivity.
  - apply IH. exact Hi.
Qed.
Lemma nth_update_other {A} (l : list A) i (x : A) j : j <> i -> nth_error (update l i x) j = nth_error l j.
Proof. revert i j. induction l as [|z l IH]; intros [|i] [|j] H; cbn; try reflexivity; try lia. apply IH. lia. Qed.
Lemma nth_update_same {A} (l : list A) i (x y : A) : nth_error l i = Some y -> nth_error (update l i x) i = Some x.
Proof. revert i. induction l as [|z l IH]; intros [|i] H; cbn in *; try discriminate; auto. Qed.
(** A borrow that shrinks, or ends. *)
Lemma shrink_inv b ls i r from r' : ainv b ls -> nth_error ls i = Some (mkLn r from true) -> sound_ref r' -> r_tag r' = r_tag r -> r_mut r' = r_mut r ->
  (forall x, in_ref x r' -> in_ref x r) -> ainv b (update ls i (mkLn r' from true)).
Proof.
  intros I Hi Hs Et Em Hsub. pose proof (from_update ls i r from r' true true Hi) as HF.
  assert (HA : forall a c, anc (from_of ls) a c -> anc (from_of (update ls i (mkLn r' from true))) a c) by (intros a c; apply anc_mono; intros; now rewrite HF).
  constructor.
  - apply I.
  - intros j q g Hj. destruct (nth_update_inv _ _ _ _ _ Hj) as [[-> X]|[_ X]]; [|exact (ai_ref _ _ I _ _ _ X)]. injection X as -> ->.
    destruct (ai_ref _ _ I _ _ _ Hi) as (A & C & D). rewrite Et, Em. auto.
  - intros j q k Hj. assert (X : exists q0, nth_error ls j = Some (mkLn q0 (Some k) true) /\ r_tag q = r_tag q0 /\ r_mut q = r_mut q0).
    { destruct (nth_update_inv _ _ _ _ _ Hj) as [[-> X]|[_ X]]; [injection X as -> <-; exists r; auto|exists q; auto]. }
    destruct X as (q0 & Hj0 & -> & ->). destruct (ai_from _ _ I _ _ _ Hj0) as (p & g & Hk & X). destruct (Nat.eq_dec k i) as [->|Hn].
    + rewrite Hi in Hk. injection Hk as <- <-. exists r', from. split; [exact (nth_update_same _ _ _ _ Hi)|]. now rewrite Et, Em.
    + exists p, g. split; [now rewrite nth_update_other|exact X].
  - intros j k q p g h Hn Hj Hk. destruct (nth_update_inv _ _ _ _ _ Hj) as [[-> X]|[N1 X]]; destruct (nth_update_inv _ _ _ _ _ Hk) as [[-> Y]|[N2 Y]].
    + congruence.
    + injection X as -> ->. rewrite Em. destruct (ai_pair _ _ I i k r p from h Hn Hi Y) as [Z|[Z|[Z|Z]]]; auto. right. right. left. intros x H1 H2. exact (Z x (Hsub x H1) H2).
    + injection Y as -> ->. rewrite Em. destruct (ai_pair _ _ I j i q r g from Hn X Hi) as [Z|[Z|[Z|Z]]]; auto. right. right. left. intros x H1 H2. exact (Z x H1 (Hsub x H2)).
    + destruct (ai_pair _ _ I j k q p g h Hn X Y) as [Z|[Z|Z]]; auto.
Qed.
Lemma end_inv b ls i r from : ainv b ls -> nth_error ls i = Some (mkLn r from true) -> not_borrowed ls i -> ainv b (update ls i (mkLn r from false)).
Proof.
  intros I Hi Hn. pose proof (from_update ls i r from r true false Hi) as HF.
  assert (HA : forall a c, anc (from_of ls) a c -> anc (from_of (update ls i (mkLn r from false))) a c) by (intros a c; apply anc_mono; intros; now rewrite HF).
  assert (K : forall j q g, nth_error (update ls i (mkLn r from false)) j = Some (mkLn q g true) -> nth_error ls j = Some (mkLn q g true)).
  { intros j q g Hj. destruct (nth_update_inv _ _ _ _ _ Hj) as [[_ X]|[_ X]]; [discriminate|exact X]. }
  constructor.
  - apply I.
  - intros j q g Hj. exact (ai_ref _ _ I _ _ _ (K _ _ _ Hj)).
  - intros j q k Hj. apply K in Hj. destruct (ai_from _ _ I _ _ _ Hj) as (p & g & Hk & X). exists p, g. split; [|exact X]. rewrite nth_update_other; [exact Hk|]. intros ->. exact (Hn _ _ Hj).
  - intros j k q p g h Hne Hj Hk. destruct (ai_pair _ _ I j k q p g h Hne (K _ _ _ Hj) (K _ _ _ Hk)) as [Z|[Z|Z]]; auto.
Qed.

(** The readiness of a live borrow, and adding what was made from it. *)
Lemma live_ready b ls i r f : ainv b ls -> nth_error ls i = Some (mkLn r f true) -> ready (r_tag r) (fun x => in_ref x r) b (r_tag r) (r_addr r) (r_addr r + r_size r).
Proof.
  intros I Hi. destruct (ai_ref _ _ I _ _ _ Hi) as (A & _ & D). split; [apply I|]. split; [exact A|]. split; [apply under_refl|]. intros x Hx. split; [exact Hx|]. exact (can_rd _ _ _ _ (D x Hx)).
Qed.
Lemma live_wr b ls i r f : ainv b ls -> nth_error ls i = Some (mkLn r f true) -> r_mut r = true -> forall x, r_addr r <= x < r_addr r + r_size r -> wr_ok (r_tag r) b (r_tag r) x.
Proof. intros I Hi Hm x Hx. destruct (ai_ref _ _ I _ _ _ Hi) as (A & _ & D). rewrite Hm in D. exact (D x Hx). Qed.
Lemma lend_inv b b' ls i r f (m : bool) rs : ainv b ls -> nth_error ls i = Some (mkLn r f true) -> shared_only ls i -> (m = true -> r_mut r = true /\ not_borrowed ls i) ->
  reads (r_tag r) (fun x => in_ref x r) b b' -> Forall (made m (r_tag r) b' (r_addr r) (r_size r)) rs ->
  ForallOrdPairs (fun r q => refs_apart r q \/ (r_mut r = false /\ r_mut q = false)) rs ->
  ainv b' (ls ++ map (lend i) rs).
Proof.
  intros I Hi Hs Hm HR HF Hp. pose proof (keep_inv _ _ _ _ _ _ I Hi Hs HR) as I'. unfold lend. apply add_inv; auto.
  - eapply Forall_impl; [|exact HF]. intros q (A & C & D & _ & _ & _ & E). split; [exact C|]. split; [exact A|]. intros x Hx. specialize (E x Hx). destruct (r_mut q); cbn [can]; [exact (wr_base _ _ _ _ E)|exact E].
  - intros j E. injection E as <-. exists r, f. split; [exact Hi|]. eapply Forall_impl; [|exact HF]. intros q (A & C & D & _ & _ & E & _). split; [|exact D]. intros H. apply Hm, E, H.
  - intros j q g Hj. destruct (Nat.eq_dec j i) as [->|Hn]; [now left|].
    destruct (ai_pair _ _ I j i q r g f Hn Hj Hi) as [X|[X|[X|[X1 X2]]]].
    + right. left. exists i. auto.
    + right. right. destruct (anc_via _ _ _ _ _ _ I X Hj) as (k & q' & H1 & H2 & _). eapply Forall_impl; [|exact HF]. intros e (_ & _ & _ & _ & _ & E & _). right. split.
      * destruct (r_mut q) eqn:Eq; [|reflexivity]. rewrite (Hs _ _ H1) in H2. symmetry. now apply H2.
      * destruct (r_mut e) eqn:Ee; [|reflexivity]. destruct (Hm (E eq_refl)) as [_ H]. destruct (H _ _ H1).
    + right. right. eapply Forall_impl; [|exact HF]. intros e (_ & _ & _ & A & C & _). left. intros x H1 H2. apply (X x H1). unfold in_ref in *. lia.
    + right. right. eapply Forall_impl; [|exact HF]. intros e (_ & _ & _ & _ & _ & E & _). right. split; [exact X1|]. destruct (r_mut e) eqn:Ee; [|reflexivity]. destruct (Hm (E eq_refl)). congruence.
Qed.
Lemma static_le r : sound_ref r -> (forall k t es, r_obj r <> OElems k t es) -> static_size (r_obj r) (r_size r) <= r_size r.
Proof.
  intros Hs Hne. destruct r as [g o a n m]; cbn in *. destruct o as [u|t l|k t es]; cbn in *; [lia| |].
  - destruct Hs as (Hwf & (v & Hv & ->) & ->). rewrite (lay_size_sp t v Hv). now apply head_size_le.
  - lia.
Qed.
Lemma al_next_ok U r b k t l es : ready (r_tag r) (fun x => in_ref x r) b (r_tag r) (r_addr r) (r_addr r + r_size r) ->
  (r_mut r = true -> forall x, r_addr r <= x < r_addr r + r_size r -> wr_ok (r_tag r) b (r_tag r) x) ->
  sound_ref r -> r_obj r = OElems k t (l :: es) ->
  exists e r' b', al_next false U r b = Some ((e, r'), b') /\ reads (r_tag r) (fun x => in_ref x r) b b' /\ made (r_mut r) (r_tag r) b' (r_addr r) (r_size r) e /\
    sound_ref r' /\ r_tag r' = r_tag r /\ r_mut r' = r_mut r /\ (forall x, in_ref x r' -> in_ref x r) /\ refs_apart r' e.
Proof.
  intros H Hw Hs Ho. unfold al_next. unfold sound_ref in Hs. rewrite Ho in *. destruct Hs as (Hwf & Hl & Hsz). inversion Hl as [|? ? Hl1 Hl2]; subst. destruct Hl1 as (v & Hv & ->).
  set (l := sp_lay t (vshape v)) in *. cbn [elems_size] in Hsz. pose proof (lay_size_sp t v Hv) as Ls. fold l in Ls.
  pose proof (head_size_le t v Hwf Hv) as Lh. pose proof (up_ge (lay_size l) (valign t)) as Lu. rewrite (valign_sp t Hwf) in *. specialize (Lu (sp_align_pos t Hwf)).
  set (st := up (lay_size l) (sp_align t)) in *. set (a := r_addr r) in *.
  set (mk := match k with EIter => false | _ => r_mut r end).
  assert (X : exists c b1, match k with EIter => retag_shared false (r_tag r) a (head_size t) | EIterMut => retag_mut false (unpin U t) (r_tag r) a (head_size t) | _ => bret (r_tag r) end b = Some (c, b1) /\
     grown mk (r_tag r) (fun x => in_ref x r) b (r_tag r) c b1).
  { assert (Y : forall m, grown m (r_tag r) (fun x => in_ref x r) b (r_tag r) (r_tag r) b).
    { intros m. split; [apply reads_refl|]. split; [apply H|]. split; [apply under_refl|]. auto. }
    destruct k.
    - eexists _, _. split; [reflexivity|apply Y].
    - destruct (ready_shared _ _ _ _ _ _ a (head_size t) H) as (c & b1 & E1 & G1); [lia|lia|]. exists c, b1. auto.
    - destruct (ready_mut _ _ _ (unpin U t) _ _ _ a (head_size t) H) as (c & b1 & E1 & G1 & G2 & G3 & G4 & G5); [lia|lia|]. exists c, b1. split; [exact E1|]. repeat (split; [assumption|]). auto.
    - eexists _, _. split; [reflexivity|apply Y]. }
  destruct X as (c & b1 & E1 & G1). unfold bbind at 1. rewrite E1. pose proof (ready_grown _ _ _ _ _ _ _ _ _ H G1) as H1.
  destruct (ready_shared _ _ _ _ _ _ a (head_size t) H1) as (d & b2 & E2 & G2); [lia|lia|]. unfold bbind at 1. rewrite E2.
  destruct (proj1 (al_layout_ok (r_tag r) (fun x => in_ref x r)) t Hwf v a d b2 Hv) as (b3 & E3 & R3).
  { refine (ready_sub _ _ _ _ _ _ _ _ _ _ (ready_grown _ _ _ _ _ _ _ _ _ H1 G2)); lia. }
  fold l in E3. unfold bbind. rewrite E3. unfold bret. eexists _, _, b3. split; [reflexivity|].
  pose proof (reads_trans _ _ _ _ _ (proj1 G2) R3) as R23.
  split; [exact (reads_trans _ _ _ _ _ (proj1 G1) R23)|]. split.
  { assert (M : made (r_mut r) (r_tag r) b1 a (r_size r) (mkAR c (OObj t l) a (lay_size l) mk)).
    { unfold made; cbn. split; [split; [exact Hwf|split; [exists v; auto|reflexivity]]|]. split; [apply G1|]. split; [apply G1|]. split; [lia|]. split; [lia|].
      split; [unfold mk; destruct k; auto; discriminate|]. unfold in_ref; cbn. intros x Hx. destruct H as (_ & _ & _ & Hrd). destruct (Hrd x) as [_ Hrx]; [lia|].
      destruct G1 as (_ & _ & _ & G4 & G5). destruct mk eqn:Emk; [|now apply G4]. apply G5; [reflexivity|]. apply Hw; [unfold mk in Emk; destruct k; auto; discriminate|lia]. }
    exact (made_reads _ _ _ _ _ _ _ _ M R23). }
  cbn. split; [split; [exact Hwf|split; [exact Hl2|lia]]|]. split; [reflexivity|]. split; [reflexivity|]. split; [unfold in_ref; cbn; fold a; intros; lia|].
  unfold refs_apart, in_ref; cbn. intros x; lia.
Qed.

Lemma step_inv U st o : ainv (fst st) (snd st) -> fair (snd st) o -> exists st', alias_step false U o st = Some st' /\ ainv (fst st') (snd st').
Proof.
  destruct st as [b ls]; cbn [fst snd]. intros I HF. destruct HF as [i r x [f Hi] Hs Hx|i r x [f Hi] Hm Hn Hx|i r [f Hi] Hs Hne|i r [f Hi] Hm Hn Hne|i r t l [f Hi] Hs Ho|i r t l [f Hi] Hm Hn Ho
    |i r t es [f Hi] Hs Ho|i r t es k [f Hi] Hm Hn Ho Hk|i r k t l es [f Hi] Hn Ho Hk|i r [f Hi] Hn
    |i r t l [f Hi] Hs Ho|i r hs ha fs l [f Hi] Hm Hn Ho|i r t l d [f Hi] Hm Hn Ho|i r t l [f Hi] Hm Hn Ho];
    cbn [alias_step]; rewrite Hi; cbn [ln_ref]; destruct (ai_ref _ _ I _ _ _ Hi) as (Hb & Hso & Hc).
  - destruct (read_ok (r_tag r) (fun x => in_ref x r) b (r_tag r) x (under_refl _) Hx (can_rd _ _ _ _ (Hc x Hx))) as (b' & E & R & _). rewrite E. eexists. split; [reflexivity|]. exact (keep_inv _ _ _ _ _ _ I Hi Hs R).
  - pose proof (Hc x Hx) as Hw. rewrite Hm in Hw. destruct (write_ok (fun x => in_ref x r) b (r_tag r) x Hx Hw) as (b' & E & W & _). rewrite E. eexists. split; [reflexivity|]. exact (work_inv _ _ _ _ _ _ I Hi Hm Hn W).
  - pose proof (live_ready _ _ _ _ _ I Hi) as H. pose proof (static_le r Hso Hne) as L. unfold al_share, bbind.
    destruct (ready_shared _ _ _ _ _ _ (r_addr r) (static_size (r_obj r) (r_size r)) H) as (c & b' & E & G); [lia|lia|]. rewrite E. eexists. split; [reflexivity|]. cbn [fst snd].
    apply (lend_inv b b' ls i r f false); auto; [discriminate|exact (proj1 G)| |repeat constructor]. constructor; [|constructor].
    refine (made_shared _ _ _ _ _ _ _ _ _ _ _ _ H G _ _ _); [|lia|lia]. destruct r; exact Hso.
  - pose proof (live_ready _ _ _ _ _ I Hi) as H. pose proof (static_le r Hso Hne) as L. unfold al_reborrow, bbind.
    destruct (ready_mut _ _ _ (is_unpin U (r_obj r)) _ _ _ (r_addr r) (static_size (r_obj r) (r_size r)) H) as (c & b' & E & G); [lia|lia|]. rewrite E. eexists. split; [reflexivity|]. cbn [fst snd].
    apply (lend_inv b b' ls i r f true); auto; [intros j q Hj; destruct (Hn _ _ Hj)|exact (proj1 G)| |repeat constructor]. constructor; [|constructor].
    refine (made_mut _ _ _ _ _ _ _ _ _ _ _ H G (live_wr _ _ _ _ _ I Hi Hm) _ _ _); [|lia|lia]. destruct r; exact Hso.
  - destruct r as [p o a n m]; cbn in Ho, Hso. subst o. cbn in Hso. destruct Hso as (Hwf & (v & Hv & ->) & ->). pose proof (live_ready _ _ _ _ _ I Hi) as H. cbn [r_tag r_addr r_size] in H. rewrite (lay_size_sp t v Hv) in *.
    destruct (al_refs_ok p _ t v a p b Hwf Hv H) as (rs & b' & E & R & F). rewrite E. eexists. split; [reflexivity|]. cbn [fst snd].
    apply (lend_inv b b' ls i _ f false _ I Hi); auto; [discriminate|]. clear - F. induction F as [|r rs M F IH]; constructor; auto. eapply Forall_impl; [|exact F]. intros q Mq. right.
    destruct M as (_ & _ & _ & _ & _ & M & _), Mq as (_ & _ & _ & _ & _ & Mq & _). destruct (r_mut r) eqn:Er; [discriminate (M eq_refl)|]. destruct (r_mut q) eqn:Eq; [discriminate (Mq eq_refl)|auto].
  - destruct r as [p o a n m]; cbn in Ho, Hso. subst o. cbn in Hso. destruct Hso as (Hwf & (v & Hv & ->) & ->). pose proof (live_ready _ _ _ _ _ I Hi) as H. pose proof (live_wr _ _ _ _ _ I Hi Hm) as Hw. cbn [r_tag r_addr r_size] in H, Hw. rewrite (lay_size_sp t v Hv) in *.
    destruct (al_muts_ok p _ U t v a p b Hwf Hv H Hw) as (rs & b' & E & R & F & D). rewrite E. eexists. split; [reflexivity|]. cbn [fst snd].
    apply (lend_inv b b' ls i _ f true _ I Hi); auto; [intros j q Hj; destruct (Hn _ _ Hj)|]. clear - D. induction D as [|r rs M F IH]; constructor; auto. eapply Forall_impl; [|exact M]. auto.
  - destruct r as [p o a n m]; cbn in Ho, Hso. subst o. eexists. split; [reflexivity|]. cbn [fst snd].
    apply (lend_inv b b ls i _ f false [mkAR p (OElems EIter t es) a n false] I Hi); auto; [discriminate|apply reads_refl| |repeat constructor]. constructor; [|constructor].
    unfold made; cbn. split; [exact Hso|]. split; [exact Hb|]. split; [apply under_refl|]. split; [lia|]. split; [lia|]. split; [discriminate|]. intros x Hx. exact (can_rd _ _ _ _ (Hc x Hx)).
  - destruct r as [p o a n m]; cbn in Ho, Hso, Hm. subst o m. eexists. split; [reflexivity|]. cbn [fst snd].
    apply (lend_inv b b ls i _ f true [mkAR p (OElems k t es) a n (match k with EIter => false | _ => true end)] I Hi); auto; [intros j q Hj; destruct (Hn _ _ Hj)|apply reads_refl| |repeat constructor]. constructor; [|constructor].
    assert (Ek : match k with EIter => false | _ => true end = true) by (destruct Hk as [-> | ->]; reflexivity). rewrite Ek.
    unfold made; cbn. split; [exact Hso|]. split; [exact Hb|]. split; [apply under_refl|]. split; [lia|]. split; [lia|]. split; [reflexivity|]. intros x Hx. exact (Hc x Hx).
  - destruct (al_next_ok U r b k t l es (live_ready _ _ _ _ _ I Hi) (live_wr _ _ _ _ _ I Hi) Hso Ho) as (e & r' & b' & E & R & M & Hs' & Et & Em & Hsub & Hap).
    rewrite E. eexists. split; [reflexivity|]. cbn [fst snd].
    assert (Hsh : shared_only ls i) by (intros j q Hj; destruct (Hn _ _ Hj)).
    pose proof (keep_inv _ _ _ _ _ _ I Hi Hsh R) as I1. pose proof (shrink_inv _ _ _ _ _ r' I1 Hi Hs' Et Em Hsub) as I2.
    pose proof (from_update ls i r f r' true true Hi) as HFr.
    destruct M as (M1 & M2 & M3 & M4 & M5 & M6 & M7).
    apply (add_inv b' f [e] _ I2).
    + constructor; [|constructor]. split; [exact M2|]. split; [exact M1|]. intros x Hx. specialize (M7 x Hx). destruct (r_mut e); cbn [can]; [exact (wr_base _ _ _ _ M7)|exact M7].
    + intros j ->. destruct (ai_from _ _ I _ _ _ Hi) as (q & g & Hj & Hq & Hu). exists q, g. split.
      * rewrite nth_update_other; [exact Hj|]. intros ->. exact (Hn _ _ Hi).
      * constructor; [|constructor]. split; [auto|]. now apply (under_trans _ (r_tag r)).
    + repeat constructor.
    + intros j q g Hj. destruct (nth_update_inv _ _ _ _ _ Hj) as [[-> X]|[Hne Hj']].
      * injection X as -> ->. right. right. constructor; [left; exact Hap|constructor].
      * destruct (ai_pair _ _ I j i q r g f Hne Hj' Hi) as [X|[X|[X|[X1 X2]]]].
        -- assert (Z : f = Some j \/ (exists k0, f = Some k0 /\ anc (from_of ls) j k0)).
           { inversion X as [Y|k0 Y1 Y2]; unfold from_of in *; rewrite Hi in *; cbn in *; eauto. }
           destruct Z as [Z|(k0 & Z & Z')]; [now left|]. right. left. exists k0. split; [exact Z|]. revert Z'. apply anc_mono. intros; now rewrite HFr.
        -- destruct (anc_via _ _ _ _ _ _ I X Hj') as (k0 & q' & Z & _). destruct (Hn _ _ Z).
        -- right. right. constructor; [|constructor]. left. intros x H1 H2. apply (X x H1). unfold in_ref in *. lia.
        -- right. right. constructor; [|constructor]. right. split; [exact X1|]. destruct (r_mut e) eqn:Ee; [|reflexivity]. specialize (M6 eq_refl). congruence.
  - eexists. split; [reflexivity|]. cbn [fst snd]. exact (end_inv _ _ _ _ _ I Hi Hn).
  - destruct r as [p o a n m]; cbn in Ho, Hso. subst o. cbn in Hso. destruct Hso as (Hwf & (v & Hv & ->) & ->). pose proof (live_ready _ _ _ _ _ I Hi) as H. cbn [r_tag r_addr r_size] in H. rewrite (lay_size_sp t v Hv) in *.
    destruct (al_copy_ok p _ t v a p b Hwf Hv H) as (b' & E & R). unfold bbind. rewrite E. eexists. split; [reflexivity|]. cbn [fst snd bret map]. rewrite app_nil_r. exact (keep_inv _ _ _ _ _ _ I Hi Hs R).
  - pose proof (live_armed _ _ _ _ _ I Hi Hm) as H. destruct r as [p o a n m]; cbn in Ho, Hso. subst o. cbn in Hso. destruct Hso as (Hwf & (v & Hv & ->) & ->). cbn [r_tag r_addr r_size] in H. rewrite (lay_size_sp _ v Hv) in *.
    destruct v; try contradiction. destruct (al_set_ok _ U hs ha fs vs a p b Hwf H) as (b' & E & W). unfold bbind. rewrite E. eexists. split; [reflexivity|]. cbn [fst snd bret map]. rewrite app_nil_r. exact (work_inv _ _ _ _ _ _ I Hi Hm Hn W).
  - pose proof (live_armed _ _ _ _ _ I Hi Hm) as H. destruct r as [p o a n m]; cbn in Ho, Hso. subst o. cbn in Hso. destruct Hso as (Hwf & (v & Hv & ->) & ->). cbn [r_tag r_addr r_size] in H. rewrite (lay_size_sp t v Hv) in *.
    destruct (al_free_ok _ U d t v a p b Hwf Hv H) as (b' & E & W). rewrite E. eexists. split; [reflexivity|]. cbn [fst snd].
    exact (end_inv _ _ _ _ _ (work_inv _ _ _ _ _ _ I Hi Hm Hn W) Hi Hn).
  - pose proof (live_armed _ _ _ _ _ I Hi Hm) as H. destruct r as [p o a n m]; cbn in Ho, Hso. subst o. cbn in Hso. destruct Hso as (Hwf & (v & Hv & ->) & ->). cbn [r_tag r_addr r_size] in H. rewrite (lay_size_sp t v Hv) in *.
    destruct (proj1 (al_init_ok _ U) t Hwf v a p b Hv H) as (b' & E & W). unfold bbind. rewrite E. eexists. split; [reflexivity|]. cbn [fst snd bret map]. rewrite app_nil_r. exact (work_inv _ _ _ _ _ _ I Hi Hm Hn W).
Qed.
Lemma start_inv st : alias_start st -> ainv (fst st) (snd st).
Proof.
  destruct st as [b ls]. intros (-> & HF & Hd). cbn [fst snd] in *. rewrite Forall_forall in HF.
  assert (K : forall i r f, nth_error ls i = Some (mkLn r f true) -> owned_root (mkLn r f true)) by (intros i r f Hi; apply HF; eapply nth_error_In; eauto).
  constructor.
  - intros u π [H|[]]. injection H as <- <-. constructor.
  - intros i r f Hi. destruct (K _ _ _ Hi) as (_ & _ & Et & Em & Hs). cbn in *. rewrite Et, Em. split; [constructor|]. split; [exact Hs|].
    intros x _ u π [H|[]] _. injection H as <- <-. left. auto.
  - intros i r j Hi. destruct (K _ _ _ Hi) as (E & _). discriminate.
  - intros i j r q f g Hn Hi Hj. right. right. left. exact (Hd i j _ _ Hi Hj Hn).
Qed.
Lemma plays_inv U st st' : alias_start st -> plays false U st st' -> ainv (fst st') (snd st').
Proof.
  intros H P. induction P as [|o st1 st2 P IH HF E]; [now apply start_inv|]. destruct (step_inv U st1 o IH HF) as (st3 & E' & I). congruence.
Qed.
Lemma anc_derived ls i j : anc (from_of ls) i j -> derived ls i j.
Proof.
  intros A. induction A as [j H|j k H A IH]; unfold from_of in H; destruct (nth_error ls j) as [[r f v]|] eqn:E; try discriminate; cbn in H; subst f; [eapply D_one; eauto|eapply D_more; eauto].
Qed.

(** ** refs() and muts() give all parts *)
Lemma bbind_some {A C} (m : B A) (k : A -> B C) b y : bbind m k b = Some y -> exists x b1, m b = Some (x, b1) /\ k x b1 = Some y.
Proof. unfold bbind. destruct (m b) as [[x b1]|]; [|discriminate]. eauto. Qed.
Ltac bsome H x b E := apply bbind_some in H; destruct H as (x & b & E & H).
Lemma part_in t v o p : wf_ty t -> vok t v -> In p (parts t (sp_lay t (vshape v)) o) -> o <= p_addr p /\ p_addr p + p_size p <= o + lay_size (sp_lay t (vshape v)).
Proof.
  intros Hwf Hv Hp. rewrite (lay_size_sp t v Hv). destruct (proj1 parts_facts t Hwf (vshape v) o) as [F _]. rewrite Forall_forall in F. destruct (F p Hp) as (A & C & _). auto.
Qed.
Lemma arr_in f o n p : fty_ok f -> In p (array_parts f o n) -> o <= p_addr p /\ p_addr p + p_size p <= o + n * f_size f.
Proof. intros Hf Hp. destruct (array_parts_ok f o n Hf) as [F _]. rewrite Forall_forall in F. destruct (F p Hp) as (A & C & _). auto. Qed.
Lemma refs_cover s : forall fs, wf_flds fs -> forall vs cs pos a p b rs b', vok_flds fs vs cs ->
  al_refs_flds s fs (sp_tail fs (map vshape vs) pos) a p b = Some (rs, b') ->
  forall q, In q (parts_flds fs (sp_tail fs (map vshape vs) pos) a) -> exists r, In r rs /\ covers r q.
Proof.
  induction fs as [|off f r IH|off f r IH|t r IH|f lf r IH]; intros Hwf vs cs pos a p b rs b' Hv E q Hq.
  - destruct Hq.
  - destruct Hwf as [_ Hr]. destruct vs as [|[] vs]; cbn [vok_flds] in Hv; try contradiction. destruct Hv as [_ Hv]. cbn [map vshape sp_tail parts_flds al_refs_flds] in *.
    bsome E c b1 E1. bsome E rs1 b2 E2. injection E as <- <-. destruct Hq as [<-|Hq].
    + eexists. split; [left; reflexivity|]. unfold covers, p_addr, p_size; cbn; lia.
    + destruct (IH Hr _ _ _ _ _ _ _ _ Hv E2 q Hq) as (r0 & A & C). exists r0. split; [now right|exact C].
  - destruct Hwf as [_ Hr]. destruct vs as [|[] vs]; cbn [vok_flds] in Hv; try contradiction. destruct Hv as [_ Hv]. cbn [map vshape sp_tail parts_flds al_refs_flds] in *.
    bsome E c b1 E1. bsome E rs1 b2 E2. injection E as <- <-. destruct Hq as [<-|Hq].
    + eexists. split; [left; reflexivity|]. unfold covers, p_addr, p_size; cbn; lia.
    + destruct (IH Hr _ _ _ _ _ _ _ _ Hv E2 q Hq) as (r0 & A & C). exists r0. split; [now right|exact C].
  - destruct Hwf as [Ht Hr]. destruct vs as [|v vs]; cbn [vok_flds] in Hv; try contradiction. destruct Hv as [Hv Hvs]. cbn [map sp_tail parts_flds al_refs_flds] in *.
    bsome E c b1 E1. bsome E rs1 b2 E2. injection E as <- <-. apply in_app_or in Hq. destruct Hq as [Hq|Hq].
    + eexists. split; [left; reflexivity|]. exact (part_in _ _ _ _ Ht Hv Hq).
    + destruct (IH Hr _ _ _ _ _ _ _ _ Hvs E2 q Hq) as (r0 & A & C). exists r0. split; [now right|exact C].
  - destruct Hwf as [Hf Hr]. destruct vs as [|[] vs]; cbn [vok_flds] in Hv; try contradiction. destruct Hv as (_ & _ & Hvs). cbn [map vshape sp_tail parts_flds al_refs_flds] in *.
    bsome E c b1 E1. bsome E rs1 b2 E2. injection E as <- <-. apply in_app_or in Hq. destruct Hq as [Hq|Hq].
    + eexists. split; [left; reflexivity|]. exact (arr_in _ _ _ _ Hf Hq).
    + destruct (IH Hr _ _ _ _ _ _ _ _ Hvs E2 q Hq) as (r0 & A & C). exists r0. split; [now right|exact C].
Qed.
Lemma muts_cover s U : forall fs, wf_flds fs -> forall vs cs pos a p b rs b', vok_flds fs vs cs ->
  al_muts_flds s U fs (sp_tail fs (map vshape vs) pos) a p b = Some (rs, b') ->
  forall q, In q (parts_flds fs (sp_tail fs (map vshape vs) pos) a) ->
  exists r, In r rs /\ covers r q /\ (r_mut r = true \/ exists off f, In (off, f) (ctrl_fields fs) /\ q = (a + off, f_size f, f_align f)).
Proof.
  induction fs as [|off f r IH|off f r IH|t r IH|f lf r IH]; intros Hwf vs cs pos a p b rs b' Hv E q Hq.
  - destruct Hq.
  - destruct Hwf as [_ Hr]. destruct vs as [|[] vs]; cbn [vok_flds] in Hv; try contradiction. destruct Hv as [_ Hv]. cbn [map vshape sp_tail parts_flds al_muts_flds ctrl_fields] in *.
    bsome E c b1 E1. bsome E rs1 b2 E2. injection E as <- <-. destruct Hq as [<-|Hq].
    + eexists. split; [left; reflexivity|]. split; [unfold covers, p_addr, p_size; cbn; lia|now left].
    + destruct (IH Hr _ _ _ _ _ _ _ _ Hv E2 q Hq) as (r0 & A & C). exists r0. split; [now right|exact C].
  - destruct Hwf as [_ Hr]. destruct vs as [|[] vs]; cbn [vok_flds] in Hv; try contradiction. destruct Hv as [_ Hv]. cbn [map vshape sp_tail parts_flds al_muts_flds ctrl_fields] in *.
    bsome E d b0 E0. bsome E c b1 E1. bsome E rs1 b2 E2. injection E as <- <-. destruct Hq as [<-|Hq].
    + eexists. split; [left; reflexivity|]. split; [unfold covers, p_addr, p_size; cbn; lia|]. right. exists off, f. split; [now left|reflexivity].
    + destruct (IH Hr _ _ _ _ _ _ _ _ Hv E2 q Hq) as (r0 & A & C & [D|(o & g & D1 & D2)]); exists r0; (split; [now right|]); (split; [exact C|]); [now left|]. right. exists o, g. split; [now right|exact D2].
  - destruct Hwf as [Ht Hr]. destruct vs as [|v vs]; cbn [vok_flds] in Hv; try contradiction. destruct Hv as [Hv Hvs]. cbn [map sp_tail parts_flds al_muts_flds ctrl_fields] in *.
    bsome E c b1 E1. bsome E rs1 b2 E2. injection E as <- <-. apply in_app_or in Hq. destruct Hq as [Hq|Hq].
    + eexists. split; [left; reflexivity|]. split; [exact (part_in _ _ _ _ Ht Hv Hq)|now left].
    + destruct (IH Hr _ _ _ _ _ _ _ _ Hvs E2 q Hq) as (r0 & A & C). exists r0. split; [now right|exact C].
  - destruct Hwf as [Hf Hr]. destruct vs as [|[] vs]; cbn [vok_flds] in Hv; try contradiction. destruct Hv as (_ & _ & Hvs). cbn [map vshape sp_tail parts_flds al_muts_flds ctrl_fields] in *.
    bsome E c b1 E1. bsome E rs1 b2 E2. injection E as <- <-. apply in_app_or in Hq. destruct Hq as [Hq|Hq].
    + eexists. split; [left; reflexivity|]. split; [exact (arr_in _ _ _ _ Hf Hq)|now left].
    + destruct (IH Hr _ _ _ _ _ _ _ _ Hvs E2 q Hq) as (r0 & A & C). exists r0. split; [now right|exact C].
Qed.
Lemma muts_ctrl s U : forall fs vs cs pos a p b rs b', vok_flds fs vs cs ->
  al_muts_flds s U fs (sp_tail fs (map vshape vs) pos) a p b = Some (rs, b') ->
  forall off f, In (off, f) (ctrl_fields fs) -> exists r, In r rs /\ r_mut r = false /\ r_addr r = a + off /\ r_size r = f_size f.
Proof.
  induction fs as [|off f r IH|off f r IH|t r IH|f lf r IH]; intros vs cs pos a p b rs b' Hv E off0 f0 Hc; cbn [ctrl_fields] in Hc.
  - destruct Hc.
  - destruct vs as [|[] vs]; cbn [vok_flds] in Hv; try contradiction. destruct Hv as [_ Hv]. cbn [map vshape sp_tail al_muts_flds] in *.
    bsome E c b1 E1. bsome E rs1 b2 E2. injection E as <- <-. destruct (IH _ _ _ _ _ _ _ _ Hv E2 off0 f0 Hc) as (r0 & A & C). exists r0. split; [now right|exact C].
  - destruct vs as [|[] vs]; cbn [vok_flds] in Hv; try contradiction. destruct Hv as [_ Hv]. cbn [map vshape sp_tail al_muts_flds] in *.
    bsome E d b0 E0. bsome E c b1 E1. bsome E rs1 b2 E2. injection E as <- <-. destruct Hc as [Hc|Hc].
    + injection Hc as <- <-. eexists. split; [left; reflexivity|]. cbn. auto.
    + destruct (IH _ _ _ _ _ _ _ _ Hv E2 off0 f0 Hc) as (r0 & A & C). exists r0. split; [now right|exact C].
  - destruct vs as [|v vs]; cbn [vok_flds] in Hv; try contradiction. destruct Hv as [Hv Hvs]. cbn [map sp_tail al_muts_flds] in *.
    bsome E c b1 E1. bsome E rs1 b2 E2. injection E as <- <-. destruct (IH _ _ _ _ _ _ _ _ Hvs E2 off0 f0 Hc) as (r0 & A & C). exists r0. split; [now right|exact C].
  - destruct vs as [|[] vs]; cbn [vok_flds] in Hv; try contradiction. destruct Hv as (_ & _ & Hvs). cbn [map vshape sp_tail al_muts_flds] in *.
    bsome E c b1 E1. bsome E rs1 b2 E2. injection E as <- <-. destruct (IH _ _ _ _ _ _ _ _ Hvs E2 off0 f0 Hc) as (r0 & A & C). exists r0. split; [now right|exact C].
Qed.

(** ** References without permission outside their static size *)
Definition barred (b : bstate) (c : tag) (x : N) : Prop := exists π, In (c, π) (br_perms b) /\ π x = Disabled.
Lemma access_fwd k t x l l' : access_all k t x l = Some l' -> forall u π y, In (u, π) l -> π y = Disabled -> exists π', In (u, π') l' /\ π' y = Disabled.
Proof.
  revert l'. induction l as [|[v ρ] l IH]; intros l' H u π y Hi Hd; cbn [access_all] in H; [destruct Hi|].
  destruct (access_all k t x l) as [r|]; [|discriminate]. specialize (IH r eq_refl).
  assert (K : forall q, (v, ρ) = (u, π) -> (y = x -> q = Disabled) -> exists π', In (u, π') ((v, set_perm x q ρ) :: r) /\ π' y = Disabled).
  { intros q E Hq. injection E as -> ->. eexists. split; [left; reflexivity|]. unfold set_perm. destruct (N.eqb_spec y x); auto. }
  assert (K' : forall q, In (u, π) l -> exists π', In (u, π') ((v, q) :: r) /\ π' y = Disabled).
  { intros q Hi'. destruct (IH u π y Hi' Hd) as (π' & A & C). exists π'. split; [now right|exact C]. }
  destruct (under t v).
  - destruct (local k (ρ x)) as [q|] eqn:E; [|discriminate]. injection H as <-. destruct Hi as [Hi|Hi]; [|now apply K']. apply K; [exact Hi|]. intros ->. injection Hi as -> ->. rewrite Hd in E. destruct k; discriminate.
  - injection H as <-. destruct Hi as [Hi|Hi]; [|now apply K']. apply K; [exact Hi|]. intros ->. injection Hi as -> ->. rewrite Hd. destruct k; reflexivity.
Qed.
Lemma access_none k t x l u π : In (u, π) l -> under t u = true -> π x = Disabled -> access_all k t x l = None.
Proof.
  intros Hi Hu Hd. induction l as [|[v ρ] l IH]; [destruct Hi|]. cbn [access_all]. destruct Hi as [Hi|Hi].
  - injection Hi as -> ->. rewrite Hu, Hd. destruct (access_all k t x l); [|reflexivity]. destruct k; reflexivity.
  - now rewrite (IH Hi).
Qed.
Lemma barred_list k t xs c y : forall b b', access_list k t xs b = Some (tt, b') -> barred b c y -> barred b' c y.
Proof.
  induction xs as [|x xs IH]; intros b b' E H; cbn [access_list] in E; [injection E as <-; exact H|]. bsome E u b1 E1. destruct u.
  apply (IH b1 b' E). unfold access in E1. destruct (access_all k t x (br_perms b)) as [l|] eqn:El; [|discriminate]. injection E1 as <-. destruct H as (π & A & C). exact (access_fwd _ _ _ _ _ El c π y A C).
Qed.
Lemma barred_retag s p a n c y b d b' : retag_shared s p a n b = Some (d, b') -> barred b c y -> barred b' c y.
Proof.
  unfold retag_shared, child. intros E H. bsome E e b1 E1. injection E1 as <- <-. bsome E u b2 E2. destruct u. injection E as <- <-. apply (barred_list _ _ _ _ _ _ _ E2).
  destruct H as (π & A & C). exists π. split; [now right|exact C].
Qed.
(** A narrow reference: permission on its own bytes only. *)
Lemma narrow_ok T R b p a n : bounded b -> below (br_next b) p -> under p T = true -> (forall x, a <= x < a + n -> R x /\ rd_ok b p x) ->
  exists c b', retag_shared true p a n b = Some (c, b') /\ ready T R b' c a (a + n) /\ reads T R b b' /\ under c p = true /\ (forall x, x < a \/ a + n <= x -> barred b' c x).
Proof.
  intros HB L HT H. unfold retag_shared, child, bbind at 1. set (c := br_next b :: p).
  set (b1 := mkBr _ _).
  assert (Lc : below (S (br_next b)) c) by (constructor; [lia|apply (below_le (br_next b)); [lia|exact L]]).
  assert (NU : forall u, below (br_next b) u -> under u c = true -> False) by (intros u Lu Hu; pose proof (below_under _ _ _ Lu Hu) as X; inversion X; subst; lia).
  assert (B1 : bounded b1).
  { intros u π [Hi|Hi]; [injection Hi as <- <-; exact Lc|]. apply (below_le (br_next b)); [cbn; lia|]. exact (HB u π Hi). }
  assert (R1 : reads T R b b1).
  { constructor; cbn [br_next br_perms b1]; try lia; try (intros _; exact B1).
    - intros d x Ld Hd u π [Hi|Hi] Hu; [injection Hi as <- <-; exfalso; exact (NU d Ld Hu)|]. exact (Hd u π Hi Hu).
    - intros d D x Ld _ Hd u π [Hi|Hi] Hu; [injection Hi as <- <-; exfalso; exact (NU d Ld Hu)|]. exact (Hd u π Hi Hu).
    - intros d x Ld Hd u π [Hi|Hi] Hu; [injection Hi as <- <-; exfalso; exact (NU d Ld Hu)|]. exact (Hd u π Hi Hu). }
  assert (K : forall x, a <= x < a + n -> rd_ok b1 c x).
  { intros x Hx u π [Hi|Hi] Hu.
    - injection Hi as <- <-. replace (a <=? x) with true by (symmetry; apply N.leb_le; lia). replace (x <? a + n) with true by (symmetry; apply N.ltb_lt; lia). discriminate.
    - apply (proj2 (H x Hx) u π Hi). apply under_cons in Hu. destruct Hu as [<-|Hu]; [|exact Hu]. exfalso. exact (NU c (HB c π Hi) (under_refl c)). }
  assert (Uc : under c p = true) by (apply under_cons; right; apply under_refl).
  destruct (read_range_ok T R b1 c a n) as (b2 & E2 & R2 & N2).
  - now apply (under_trans c p).
  - intros x Hx. split; [apply H; exact Hx|now apply K].
  - exact Lc.
  - unfold bbind. rewrite E2. exists c, b2. split; [reflexivity|]. split; [|split; [exact (reads_trans _ _ _ _ _ R1 R2)|split; [exact Uc|]]].
    + split; [now apply (rd_bounded _ _ _ _ R2)|]. split; [now rewrite N2|]. split; [now apply (under_trans c p)|]. intros x Hx. split; [apply H; exact Hx|]. apply (rd_keep _ _ _ _ R2); [exact Lc|now apply K].
    + intros x Hx. apply (barred_list _ _ _ _ _ _ _ E2). eexists. split; [left; reflexivity|]. cbn.
      destruct (N.leb_spec a x), (N.ltb_spec x (a + n)); cbn; try reflexivity. lia.
Qed.
Lemma narrow_array U f k xs a : fty_ok f -> vok (TArray f k) (VArr xs) ->
  alias_run true U [AShare 0; ARefs 1] (mkBr 0 [([], fun _ => Active)], [mkLn (mkAR [] (OObj (TArray f k) (sp_lay (TArray f k) (vshape (VArr xs)))) a (vsize (TArray f k) (VArr xs)) true) None true]) = None <-> 0 < len xs * f_size f.
Proof.
  intros Hf Hv. pose proof (head_size_le (TArray f k) (VArr xs) Hf Hv) as Lh. pose proof (up_ge (len_size k) (f_align f) (pow2_pos _ (proj1 Hf))) as Lu.
  set (n := vsize _ _) in *. set (l := sp_lay _ _). set (b := mkBr 0 _). set (R := fun _ : N => True).
  assert (HB : bounded b) by (intros u π [X|[]]; injection X as <- <-; constructor).
  destruct (narrow_ok [] R b [] a (len_size k) HB) as (c & b1 & E1 & H1 & _ & U1 & K1); [constructor|reflexivity|..].
  { intros x _. split; [exact I|]. intros u π [X|[]] _. injection X as <- <-. discriminate. }
  cbn [alias_run alias_step nth_error ln_ref]. unfold al_share. cbn [r_tag r_obj r_addr r_size static_size head_size]. unfold bbind at 1 2. rewrite E1. cbn [bret].
  cbn [app map alias_run alias_step nth_error ln_ref lend]. cbn [al_refs l vshape sp_lay head_size].
  destruct (narrow_ok [] R b1 c a (len_size k)) as (d & b2 & E2 & H2 & R2 & U2 & K2); [apply H1|apply H1|apply H1|apply H1|]. unfold bbind at 1. rewrite E2.
  cbn [al_layout]. destruct (ready_range _ _ _ _ _ _ a (len_size k) H2) as (b3 & E3 & R3); [lia|lia|]. unfold bbind at 1. rewrite E3.
  pose proof (ready_reads _ _ _ _ _ _ _ (ready_reads _ _ _ _ _ _ _ H1 R2) R3) as H3.
  split.
  - intros E. destruct (N.eq_dec (len xs * f_size f) 0) as [Hz|Hz]; [|lia]. exfalso. rewrite Hz in E. unfold bbind, retag_shared, child, access_range, bbind, bret in E. cbn in E. discriminate.
  - intros Hz. unfold bbind. replace (retag_shared true c (a + up (len_size k) (f_align f)) (len xs * f_size f) b3) with (@None (tag * bstate)); [reflexivity|]. symmetry.
    set (x := a + up (len_size k) (f_align f)). assert (Hb : barred b3 c x).
    { apply (barred_list _ _ _ _ _ _ _ E3). apply (barred_retag _ _ _ _ _ _ _ _ _ E2). apply K1. lia. }
    unfold retag_shared, child, bbind. set (b4 := mkBr _ _).
    assert (E : access_range Rd (br_next b3 :: c) x (len xs * f_size f) b4 = None).
    { unfold access_range. replace (upto (len xs * f_size f)) with (0 :: map N.of_nat (seq 1 (N.to_nat (len xs * f_size f) - 1))).
      - cbn [map access_list]. rewrite N.add_0_r. unfold bbind, access. destruct Hb as (π & A & C).
        rewrite (access_none Rd (br_next b3 :: c) x (br_perms b4) c π); [reflexivity|now right|apply under_cons; right; apply under_refl|exact C].
      - unfold upto. destruct (N.to_nat (len xs * f_size f)) as [|m] eqn:Em; [lia|]. cbn [seq map]. now rewrite Nat.sub_succ, Nat.sub_0_r. }
    rewrite E. reflexivity.
Qed.
