(** Ownership.v - who drops what: counting destructors and frees in the runs of initializers. *)
From Verif Require Export Initialize.

Definition cell_dec : forall x y : cell, {x = y} + {x <> y}.
Proof. decide equality. apply N.eq_dec. Defined.
Definition leaf_dec : forall x y : list cell, {x = y} + {x <> y} := list_eq_dec cell_dec.
(** solves goals about permutations of concatenations by counting *)
Ltac perm :=
  let x := fresh "x" in
  rewrite (Permutation_count_occ leaf_dec); intros x;
  repeat match goal with
  | H : Permutation _ _ |- _ => rewrite (Permutation_count_occ leaf_dec) in H; specialize (H x)
  end;
  repeat rewrite count_occ_app in *; cbn [count_occ] in *; lia.

Lemma drops_app a b : drops_of (a ++ b) = drops_of a ++ drops_of b.
Proof. induction a as [|[] a IH]; cbn; auto. now rewrite IH. Qed.
Lemma frees_app a b : frees_of (a ++ b) = frees_of a ++ frees_of b.
Proof. induction a as [|[] a IH]; cbn; auto. now rewrite IH. Qed.
Lemma clones_app a b : clones_of (a ++ b) = clones_of a ++ clones_of b.
Proof. induction a as [|[] a IH]; cbn; auto. now rewrite IH. Qed.
Lemma drops_map l : drops_of (map EDrop l) = l.
Proof. induction l; cbn; congruence. Qed.
Lemma frees_map l : frees_of (map EDrop l) = [].
Proof. induction l; cbn; congruence. Qed.
Lemma clones_map l : clones_of (map EDrop l) = [].
Proof. induction l; cbn; congruence. Qed.
Lemma drops_ev f l : drops_of (drop_events f l) = if f_drop f then l else [].
Proof. unfold drop_events. destruct (f_drop f); [apply drops_map|reflexivity]. Qed.
Lemma frees_ev f l : frees_of (drop_events f l) = [].
Proof. unfold drop_events. destruct (f_drop f); [apply frees_map|reflexivity]. Qed.

Lemma idrop_own_all :
  (forall t i, iwt t i -> drops_of (idrop t i) = iowned t i /\ frees_of (idrop t i) = iboxes t i) /\
  (forall fs is_, iwt_flds fs is_ ->
     drops_of (concat (idrops fs is_)) = iowned_flds fs is_ /\ frees_of (concat (idrops fs is_)) = iboxes_flds fs is_).
Proof.
  assert (Hb : forall t a v, drops_of (map EDrop (vdrops t v) ++ [EDealloc a (vsize t v) (sp_align t)]) = vdrops t v /\
                 frees_of (map EDrop (vdrops t v) ++ [EDealloc a (vsize t v) (sp_align t)]) = [box_block t a v]).
  { intros. rewrite drops_app, frees_app, drops_map, frees_map. cbn. now rewrite app_nil_r. }
  assert (Ho : forall t v, drops_of (map EDrop (vdrops t v)) = vdrops t v /\ frees_of (map EDrop (vdrops t v)) = []).
  { intros. now rewrite drops_map, frees_map. }
  assert (Ha : forall f ai, drops_of (adrop f ai) = aowned f ai /\ frees_of (adrop f ai) = []).
  { intros f ai. destruct ai; cbn [adrop aowned]; auto. now rewrite drops_ev, frees_ev. }
  apply vty_flds_ind.
  - intros f i Hi. destruct i; cbn [iwt] in Hi; try contradiction; cbn [idrop iowned iboxes]; auto.
    now rewrite drops_ev, frees_ev.
  - intros f k i Hi. destruct i; cbn [iwt] in Hi; try contradiction; cbn [idrop iowned iboxes]; auto.
  - intros t IH i Hi. destruct i; cbn [iwt] in Hi; try contradiction; cbn [idrop iowned iboxes]; auto.
  - intros kd hs ha fs IH i Hi. destruct i; cbn [iwt] in Hi; try contradiction; cbn [idrop iowned iboxes]; auto.
  - intros is_ Hi. destruct is_; try contradiction. auto.
  - intros off f r IH is_ Hi. destruct is_ as [|[] is_]; try contradiction.
    cbn [idrops concat iowned_flds iboxes_flds]. rewrite drops_app, frees_app, drops_ev, frees_ev.
    destruct (IH is_ (proj2 Hi)) as [-> ->]. auto.
  - intros off f r IH is_ Hi. destruct is_ as [|[] is_]; try contradiction.
    cbn [idrops concat iowned_flds iboxes_flds]. rewrite drops_app, frees_app, drops_ev, frees_ev.
    destruct (IH is_ (proj2 Hi)) as [-> ->]. auto.
  - intros t IHt r IH is_ Hi. destruct is_ as [|i is_]; try contradiction.
    cbn [idrops concat iowned_flds iboxes_flds]. rewrite drops_app, frees_app.
    destruct (IH is_ (proj2 Hi)) as [-> ->]. destruct (IHt i (proj1 Hi)) as [-> ->]. auto.
  - intros f lf r IH is_ Hi. destruct is_ as [|[] is_]; try contradiction.
    cbn [idrops concat iowned_flds iboxes_flds]. rewrite drops_app, frees_app.
    destruct (IH is_ (proj2 Hi)) as [-> ->]. destruct (Ha f ai) as [-> ->]. auto.
Qed.
Lemma concat_rev_perm {A} (l : list (list A)) : Permutation (concat (rev l)) (concat l).
Proof.
  induction l as [|x l IH]; cbn [rev concat]; [constructor|].
  rewrite concat_app. cbn [concat]. rewrite app_nil_r. rewrite Permutation_app_comm. now apply Permutation_app_head.
Qed.
Lemma drops_perm a b : Permutation a b -> Permutation (drops_of a) (drops_of b).
Proof.
  induction 1 as [|x a b H IH|x y a|a b c H1 IH1 H2 IH2]; [constructor| | |eapply perm_trans; eauto].
  - destruct x; cbn; auto.
  - destruct x, y; cbn; auto. constructor.
Qed.
Lemma frees_perm a b : Permutation a b -> Permutation (frees_of a) (frees_of b).
Proof.
  induction 1 as [|x a b H IH|x y a|a b c H1 IH1 H2 IH2]; [constructor| | |eapply perm_trans; eauto].
  - destruct x; cbn; auto.
  - destruct x, y; cbn; auto. constructor.
Qed.
Lemma unwinds_perm kd temps rest :
  exists lost, Permutation (unwinds kd temps rest ++ lost) (temps ++ concat rest) /\
    (kd = KStruct -> lost = []) /\ (kd = KTuple -> lost = temps).
Proof.
  destruct kd; cbn [unwinds].
  - exists temps. split; [|split; [discriminate|auto]]. rewrite Permutation_app_comm. apply Permutation_app_head, concat_rev_perm.
  - exists []. rewrite app_nil_r. split; [|split; [auto|discriminate]]. reflexivity.
Qed.

Lemma gen_run_drops l : (forall e o, In (e, o) l -> drops_of e = [] /\ frees_of e = []) ->
  drops_of (fst (gen_run l)) = [] /\ frees_of (fst (gen_run l)) = [].
Proof.
  induction l as [|[e [v|]] l IH]; intros H; cbn [gen_run fst]; auto.
  - rewrite drops_app, frees_app. destruct (H e (Some v) (or_introl eq_refl)) as [-> ->].
    apply IH. intros; eapply H; right; eauto.
  - eapply H; left; eauto.
Qed.
Lemma arun_own f n ai :
  frees_of (fst (arun f n ai)) = [] /\
  match snd (arun f n ai) with
  | Some xs => drops_of (fst (arun f n ai)) = [] /\
      (aok f ai -> exists fresh, (if f_drop f then xs else []) = aowned f ai ++ fresh)
  | None => exists leaked, Permutation (drops_of (fst (arun f n ai)) ++ leaked) (aowned f ai)
  end.
Proof.
  assert (G : forall (A : Type) (h : A -> list event * option (list cell)) l,
    (forall x, drops_of (fst (h x)) = [] /\ frees_of (fst (h x)) = []) ->
    drops_of (fst (gen_run (map h l))) = [] /\ frees_of (fst (gen_run (map h l))) = []).
  { intros A h l Hh. apply gen_run_drops. intros e o Hin. apply in_map_iff in Hin. destruct Hin as (x & E & _).
    specialize (Hh x). now rewrite E in Hh. }
  destruct ai as [g|g|g|vs|vs|a k vs|a k vs|vs|ws fin]; cbn [arun aok aowned].
  - destruct (G _ (fun i => ([ECall i], g i)) (upto n)) as [E1 E2]; [auto|]. split; [exact E2|].
    destruct (snd _); [split; [exact E1|intros; eexists; reflexivity]|exists []; rewrite E1; constructor].
  - destruct (G _ (fun i : N => ([ECall i], g i)) (upto n)) as [E1 E2]; [auto|]. split; [exact E2|].
    destruct (snd _); [split; [exact E1|intros; eexists; reflexivity]|exists []; rewrite E1; constructor].
  - destruct (G _ (fun i => ([ENext], g i)) (upto n)) as [E1 E2]; [auto|]. split; [exact E2|].
    destruct (snd _); [split; [exact E1|intros; eexists; reflexivity]|exists []; rewrite E1; constructor].
  - split; [reflexivity|]. cbn [snd fst]. destruct (len vs =? n); [split; [reflexivity|intros; eexists; reflexivity]|exists []; constructor].
  - destruct (len vs =? n); [|split; [reflexivity|exists []; constructor]].
    destruct (G _ (fun v => ([EClone v], f_clone f v)) vs) as [E1 E2]; [auto|]. split; [exact E2|].
    destruct (snd _); [split; [exact E1|intros; eexists; reflexivity]|exists []; rewrite E1; constructor].
  - split; [reflexivity|]. cbn [snd fst]. destruct (len vs =? n); [split; [reflexivity|intros; eexists; reflexivity]|exists []; constructor].
  - destruct (len vs =? n); [|split; [reflexivity|exists []; constructor]].
    destruct (G _ (fun v => ([EClone v], f_clone f v)) vs) as [E1 E2]; [auto|]. split; [exact E2|].
    destruct (snd _); [split; [exact E1|intros; eexists; reflexivity]|exists []; rewrite E1; constructor].
  - destruct (len vs =? n); cbn [fst snd].
    + split; [reflexivity|split; [reflexivity|]]. intros _. exists []. now rewrite app_nil_r.
    + rewrite frees_ev, drops_ev. split; [reflexivity|]. exists []. now rewrite app_nil_r.
  - split; [reflexivity|]. cbn [snd fst]. destruct (_ && _); [split; [reflexivity|intros; eexists; reflexivity]|exists []; constructor].
Qed.

Lemma plain_vdrops_all :
  (forall t, plain t -> forall v, vdrops t v = []) /\ (forall fs, plain_flds fs -> forall vs, vdrops_flds fs vs = []).
Proof.
  apply vty_flds_ind.
  - intros f H v. destruct v; cbn in *; auto. now rewrite H.
  - intros f k H v. destruct v; cbn in *; auto. now rewrite H.
  - intros t IH H v. destruct v; cbn in *; auto.
  - intros kd hs ha fs IH H v. destruct v; cbn in *; auto.
  - intros _ vs. reflexivity.
  - intros off f r IH [H1 H2] vs. destruct vs as [|[] vs]; cbn; auto. now rewrite H1, IH.
  - intros off f r IH [H1 H2] vs. destruct vs as [|[] vs]; cbn; auto. now rewrite H1, IH.
  - intros t IHt r IH [H1 H2] vs. destruct vs as [|v vs]; cbn; auto. now rewrite IHt, IH.
  - intros f lf r IH [H1 H2] vs. destruct vs as [|[] vs]; cbn; auto. now rewrite H1, IH.
Qed.

(** Ownership of a run: on success nothing is dropped, and the object owns what the initializer
    owned (plus fresh values); on panic each owned value is dropped at most once (the others are
    leaked); in both cases exactly the initializer's boxes are freed. *)
Definition own_ok (run_evs : list event) (ok : bool) (vd : list (list cell)) (owned : list (list cell)) (boxes : list block) : Prop :=
  Permutation (frees_of run_evs) boxes /\
  if ok then drops_of run_evs = [] /\ exists fresh, Permutation vd (owned ++ fresh)
  else exists leaked, Permutation (drops_of run_evs ++ leaked) owned.

Lemma irun_own_all :
  (forall t i, iwt t i ->
     own_ok (fst (irun t i)) (match snd (irun t i) with Some _ => true | None => false end)
       (match snd (irun t i) with Some v => vdrops t v | None => [] end) (iowned t i) (iboxes t i)) /\
  (forall fs kd is_ cs temps, iwt_flds fs is_ -> frees_of temps = [] ->
     own_ok (fst (fruns kd fs is_ cs temps)) (match snd (fruns kd fs is_ cs temps) with Some _ => true | None => false end)
       (drops_of temps ++ match snd (fruns kd fs is_ cs temps) with Some vs => vdrops_flds fs vs | None => [] end)
       (drops_of temps ++ iowned_flds fs is_) (iboxes_flds fs is_)).
Proof.
  assert (Hsrc : forall t i a v, iwt t i -> i = ICopy a v \/ i = IBox a v \/ i = IOwned a v ->
     own_ok (fst (irun t i)) (match snd (irun t i) with Some _ => true | None => false end)
       (match snd (irun t i) with Some v => vdrops t v | None => [] end) (iowned t i) (iboxes t i)).
  { intros t i a v Hi [-> | [-> | ->]].
    - replace (irun t (ICopy a v)) with (@nil event, Some v) by (destruct t; reflexivity).
      replace (iowned t (ICopy a v)) with (@nil (list cell)) by (destruct t; reflexivity).
      replace (iboxes t (ICopy a v)) with (@nil block) by (destruct t; reflexivity).
      split; [constructor|]. cbn. split; [reflexivity|]. exists (vdrops t v). reflexivity.
    - replace (irun t (IBox a v)) with ([EDealloc a (vsize t v) (sp_align t)], Some v) by (destruct t; reflexivity).
      replace (iowned t (IBox a v)) with (vdrops t v) by (destruct t; reflexivity).
      replace (iboxes t (IBox a v)) with [box_block t a v] by (destruct t; reflexivity).
      split; [reflexivity|]. cbn. split; [reflexivity|]. exists []. now rewrite app_nil_r.
    - replace (irun t (IOwned a v)) with (@nil event, Some v) by (destruct t; reflexivity).
      replace (iowned t (IOwned a v)) with (vdrops t v) by (destruct t; reflexivity).
      replace (iboxes t (IOwned a v)) with (@nil block) by (destruct t; reflexivity).
      split; [constructor|]. cbn. split; [reflexivity|]. exists []. now rewrite app_nil_r. }
  apply vty_flds_ind.
  - intros f i Hi. destruct i; try (eapply Hsrc; eauto; fail); cbn [iwt] in Hi; try contradiction.
    + split; [constructor|]. cbn. split; [reflexivity|]. exists []. now rewrite app_nil_r.
    + cbn [irun fst snd iowned iboxes]. destruct (f_clone f v); cbn [option_map]; (split; [constructor|]); cbn.
      * split; [reflexivity|]. eauto.
      * exists []. constructor.
    + cbn [irun fst snd iowned iboxes]. destruct (f_clone f ghost); cbn [option_map]; (split; [constructor|]); cbn.
      * split; [reflexivity|]. eauto.
      * exists []. constructor.
  - intros f k i Hi. destruct i; try (eapply Hsrc; eauto; fail); cbn [iwt] in Hi; try contradiction.
    cbn [irun fst snd iowned iboxes]. destruct (arun_own f n ai) as [E1 E2].
    split; [rewrite E1; constructor|]. destruct (snd (arun f n ai)) as [xs|]; cbn [option_map].
    + destruct E2 as [E2 E3]. split; [exact E2|]. destruct (E3 (proj1 Hi)) as [fresh E4]. exists fresh. cbn [vdrops]. now rewrite E4.
    + exact E2.
  - intros t IH i Hi. destruct i; try (eapply Hsrc; eauto; fail); cbn [iwt] in Hi; try contradiction.
    specialize (IH i Hi). cbn [irun fst snd iowned iboxes]. destruct (snd (irun t i)); exact IH.
  - intros kd hs ha fs IH i Hi. destruct i; try (eapply Hsrc; eauto; fail); cbn [iwt] in Hi; try contradiction.
    specialize (IH kd is_ (ictrls fs is_) [] Hi eq_refl). cbn [irun fst snd iowned iboxes]. cbv zeta. cbn [fst snd].
    destruct (snd (fruns kd fs is_ (ictrls fs is_) [])); exact IH.
  - intros kd is_ cs temps Hi Ht. destruct is_; try contradiction. split; [constructor|]. cbn. split; [reflexivity|].
    exists []. now rewrite !app_nil_r.
  - intros off f r IH kd is_ cs temps Hi Ht. destruct is_ as [|[] is_]; try contradiction.
    cbn [fruns fst snd iowned_flds iboxes_flds]. cbv zeta. cbn [fst snd].
    specialize (IH kd is_ cs (drop_events f [v] ++ temps) (proj2 Hi)).
    rewrite frees_app, frees_ev, Ht, drops_app, drops_ev in IH. specialize (IH eq_refl).
    destruct IH as [I1 I2]. split; [exact I1|].
    destruct (snd (fruns kd r is_ cs (drop_events f [v] ++ temps))) as [vs|]; cbn [option_map].
    + destruct I2 as [I2 (fresh & I3)]. split; [exact I2|]. exists fresh. cbn [vdrops_flds].
      rewrite <- !app_assoc in I3. rewrite !app_assoc in *.
      etransitivity; [|etransitivity; [exact I3|]].
      * apply Permutation_app_tail. apply Permutation_app_comm.
      * do 2 apply Permutation_app_tail. apply Permutation_app_comm.
    + destruct I2 as (leaked & I2). exists leaked. etransitivity; [exact I2|]. rewrite !app_assoc.
      apply Permutation_app_tail. apply Permutation_app_comm.
  - intros off f r IH kd is_ cs temps Hi Ht. destruct is_ as [|[] is_]; try contradiction.
    cbn [fruns fst snd iowned_flds iboxes_flds]. cbv zeta. cbn [fst snd].
    specialize (IH kd is_ cs (drop_events f [v] ++ temps) (proj2 Hi)).
    rewrite frees_app, frees_ev, Ht, drops_app, drops_ev in IH. specialize (IH eq_refl).
    destruct IH as [I1 I2]. split; [exact I1|].
    destruct (snd (fruns kd r is_ cs (drop_events f [v] ++ temps))) as [vs|]; cbn [option_map].
    + destruct I2 as [I2 (fresh & I3)]. split; [exact I2|]. exists fresh. cbn [vdrops_flds].
      rewrite <- !app_assoc in I3. rewrite !app_assoc in *.
      etransitivity; [|etransitivity; [exact I3|]].
      * apply Permutation_app_tail. apply Permutation_app_comm.
      * do 2 apply Permutation_app_tail. apply Permutation_app_comm.
    + destruct I2 as (leaked & I2). exists leaked. etransitivity; [exact I2|]. rewrite !app_assoc.
      apply Permutation_app_tail. apply Permutation_app_comm.
  - intros t IHt r IH kd is_ cs temps Hi Ht. destruct is_ as [|i is_]; try contradiction.
    cbn [fruns iowned_flds iboxes_flds]. specialize (IHt i (proj1 Hi)).
    destruct (irun t i) as [e [v|]]; cbn [fst snd] in *.
    + destruct IHt as [T1 [T2 (tf & T3)]]. specialize (IH kd is_ cs temps (proj2 Hi) Ht). destruct IH as [I1 I2].
      split; [rewrite frees_app; now apply Permutation_app|].
      destruct (snd (fruns kd r is_ cs temps)) as [vs|]; cbn [option_map].
      * destruct I2 as [I2 (fr & I3)]. split; [rewrite drops_app, T2; exact I2|]. cbn [vdrops_flds].
        exists (tf ++ fr). clear I1 T1. perm.
      * destruct I2 as (leaked & I2). exists (iowned t i ++ leaked). rewrite drops_app, T2. cbn [app]. clear I1 T1. perm.
    + destruct IHt as [T1 (tl & T2)]. destruct (unwinds_perm kd temps (idrops r is_)) as (lost & U & U3 & U4).
      destruct (proj2 idrop_own_all r is_ (proj2 Hi)) as [D1 D2].
      pose proof (drops_perm _ _ U) as U1. pose proof (frees_perm _ _ U) as U2.
      rewrite !drops_app in U1. rewrite !frees_app in U2. rewrite Ht, D2 in U2. rewrite D1 in U1. cbn [app] in U2.
      split.
      * rewrite frees_app. apply Permutation_app; [exact T1|].
        assert (H : frees_of lost = []) by (destruct kd; [rewrite U4; auto|rewrite U3; auto]).
        rewrite H, app_nil_r in U2. exact U2.
      * cbn [fst snd]. exists (tl ++ drops_of lost). rewrite drops_app. clear U U2. try clear T1. perm.
  - intros f lf r IH kd is_ cs temps Hi Ht. destruct is_ as [|[] is_]; try contradiction.
    cbn [fruns iowned_flds iboxes_flds]. destruct (arun_own f (lf cs) ai) as [A1 A2].
    destruct (arun f (lf cs) ai) as [e [xs|]]; cbn [fst snd] in *.
    + destruct A2 as [T2 T3]. destruct (T3 (proj1 Hi)) as (tf & T4). specialize (IH kd is_ cs temps (proj2 Hi) Ht). destruct IH as [I1 I2].
      split; [rewrite frees_app, A1; exact I1|].
      destruct (snd (fruns kd r is_ cs temps)) as [vs|]; cbn [option_map].
      * destruct I2 as [I2 (fr & I3)]. split; [rewrite drops_app, T2; exact I2|]. cbn [vdrops_flds].
        exists (tf ++ fr). rewrite T4. clear I1. perm.
      * destruct I2 as (leaked & I2). exists (aowned f ai ++ leaked). rewrite drops_app, T2. cbn [app]. clear I1. perm.
    + destruct A2 as (tl & T2). destruct (unwinds_perm kd temps (idrops r is_)) as (lost & U & U3 & U4).
      destruct (proj2 idrop_own_all r is_ (proj2 Hi)) as [D1 D2].
      pose proof (drops_perm _ _ U) as U1. pose proof (frees_perm _ _ U) as U2.
      rewrite !drops_app in U1. rewrite !frees_app in U2. rewrite Ht, D2 in U2. rewrite D1 in U1. cbn [app] in U2.
      split.
      * rewrite frees_app, A1. cbn [app].
        assert (H : frees_of lost = []) by (destruct kd; [rewrite U4; auto|rewrite U3; auto]).
        rewrite H, app_nil_r in U2. exact U2.
      * cbn [fst snd]. exists (tl ++ drops_of lost). rewrite drops_app. clear U U2. try clear T1. perm.
Qed.
