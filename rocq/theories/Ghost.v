(** Ghost.v - the ghost components of initializers do not matter to the model, and addresses do not
    matter to the meaning of an initializer. *)
From Verif Require Export SubObj BoxFacts SeqHist.

Lemma lft_ext {A} (m m' : M world A) : (forall w, m w = m' w) -> forall ws, lft m ws = lft m' ws.
Proof. intros H [w s]. unfold lft. now rewrite H. Qed.
Lemma seq_push_strip t chk i ws : seq_push t chk (strip i) ws = seq_push t chk i ws.
Proof.
  assert (Hd : forall ws, (lft (drop_init t (strip i)) ;;; panic (A := unit)) ws = (lft (drop_init t i) ;;; panic (A := unit)) ws).
  { apply bind_ext; [|reflexivity]. apply lft_ext. intros; apply drop_strip. }
  unfold seq_push. apply bind_ext; [apply lft_ext, unwind_ext; intros; [apply layout_strip|apply drop_strip]|]. intros [l|] w1; [|apply Hd].
  destruct (checked_add (lay_size l) (valign t - 1)); [|apply Hd]. apply bind_ext; [reflexivity|]. intros s w2.
  destruct (checked_add (s_occ s) _); [|apply Hd]. apply bind_ext.
  - intros ws'. destruct (s_cap s <? n0); [|reflexivity]. apply bind_ext; [|reflexivity]. apply lft_ext.
    apply unwind_ext; [reflexivity|intros; apply drop_strip].
  - intros _ ws'. apply bind_ext; [reflexivity|]. intros s' ws''. apply bind_ext; [reflexivity|]. intros _ w4.
    apply bind_ext; [reflexivity|]. intros y w5. apply bind_ext; [|reflexivity]. apply lft_ext. intros; apply initialize_strip.
Qed.

(** ** Addresses *)
Lemma arun_noaddr f n ai : arun f n (anoaddr ai) = arun f n ai.
Proof. destruct ai; reflexivity. Qed.
Lemma adrop_noaddr f ai : adrop f (anoaddr ai) = adrop f ai.
Proof. destruct ai; reflexivity. Qed.
Lemma ictrls_noaddr fs : forall is_, ictrls fs (map noaddr is_) = ictrls fs is_.
Proof. induction fs; intros [|i is_]; cbn [ictrls map]; auto. destruct i; cbn [noaddr]; auto. now rewrite IHfs. Qed.
Lemma ishape_noaddr :
  (forall t i, ishape t (noaddr i) = ishape t i) /\
  (forall fs is_ cs, ishapes fs (map noaddr is_) cs = ishapes fs is_ cs).
Proof.
  apply vty_flds_ind.
  - intros f i. destruct i; reflexivity.
  - intros f k i. destruct i; reflexivity.
  - intros t IH i. destruct i; try reflexivity. cbn [noaddr ishape]. apply IH.
  - intros kd hs ha fs IH i. destruct i; try reflexivity. cbn [noaddr ishape]. now rewrite ictrls_noaddr, IH.
  - intros is_ cs. destruct is_; reflexivity.
  - intros off f r IH [|i is_] cs; cbn [map ishapes]; auto. now rewrite IH.
  - intros off f r IH [|i is_] cs; cbn [map ishapes]; auto. now rewrite IH.
  - intros t IHt r IH [|i is_] cs; cbn [map ishapes]; auto. now rewrite IHt, IH.
  - intros f lf r IH [|i is_] cs; cbn [map ishapes]; auto. now rewrite IH.
Qed.
Lemma isize_noaddr t i : isize t (noaddr i) = isize t i.
Proof. unfold isize. now rewrite (proj1 ishape_noaddr). Qed.
Lemma ilens_noaddr :
  (forall t i, ilens t (noaddr i) = ilens t i) /\
  (forall fs is_ cs, ilens_flds fs (map noaddr is_) cs = ilens_flds fs is_ cs).
Proof.
  apply vty_flds_ind.
  - intros f i. destruct i; reflexivity.
  - intros f k i. destruct i; reflexivity.
  - intros t IH i. destruct i; try reflexivity. cbn [noaddr ilens]. apply IH.
  - intros kd hs ha fs IH i. destruct i; try reflexivity. cbn [noaddr ilens]. now rewrite ictrls_noaddr, IH.
  - intros is_ cs. destruct is_; reflexivity.
  - intros off f r IH [|i is_] cs; cbn [map ilens_flds]; auto.
  - intros off f r IH [|i is_] cs; cbn [map ilens_flds]; auto.
  - intros t IHt r IH [|i is_] cs; cbn [map ilens_flds]; auto. now rewrite IHt, IH.
  - intros f lf r IH [|i is_] cs; cbn [map ilens_flds]; auto. now rewrite IH.
Qed.
Lemma fits_noaddr t i : fits t (noaddr i) = fits t i.
Proof. unfold fits. now rewrite isize_noaddr, (proj1 ilens_noaddr). Qed.
Lemma ival_noaddr :
  (forall t i, ival t (noaddr i) = ival t i) /\
  (forall fs is_ cs, ivals fs (map noaddr is_) cs = ivals fs is_ cs).
Proof.
  apply vty_flds_ind.
  - intros f i. destruct i; reflexivity.
  - intros f k i. destruct i; try reflexivity. cbn [noaddr ival]. now rewrite arun_noaddr.
  - intros t IH i. destruct i; try reflexivity. cbn [noaddr ival]. now rewrite IH.
  - intros kd hs ha fs IH i. destruct i; try reflexivity. cbn [noaddr ival]. now rewrite ictrls_noaddr, IH.
  - intros is_ cs. destruct is_; reflexivity.
  - intros off f r IH [|[] l_] cs; cbn [map noaddr ivals]; auto. now rewrite IH.
  - intros off f r IH [|[] l_] cs; cbn [map noaddr ivals]; auto. now rewrite IH.
  - intros t IHt r IH [|i is_] cs; cbn [map ivals]; auto. now rewrite IHt, IH.
  - intros f lf r IH [|[] l_] cs; cbn [map noaddr ivals]; auto. now rewrite arun_noaddr, IH.
Qed.
Lemma drops_concat ls ls' : Forall2 (fun e e' => drops_of e = drops_of e') ls ls' -> drops_of (concat ls) = drops_of (concat ls').
Proof. induction 1 as [|e e' l l' H1 H2 IH]; cbn [concat]; auto. now rewrite !drops_app, H1, IH. Qed.
Lemma Forall2_rev {A B} (R : A -> B -> Prop) l l' : Forall2 R l l' -> Forall2 R (rev l) (rev l').
Proof. induction 1; cbn [rev]; [constructor|]. apply Forall2_app; auto. Qed.
Lemma idrop_noaddr :
  (forall t i, drops_of (idrop t (noaddr i)) = drops_of (idrop t i)) /\
  (forall fs is_, Forall2 (fun e e' => drops_of e = drops_of e') (idrops fs (map noaddr is_)) (idrops fs is_)).
Proof.
  apply vty_flds_ind.
  - intros f i. destruct i; try reflexivity. cbn [noaddr idrop]. now rewrite !drops_app.
  - intros f k i. destruct i; try reflexivity; cbn [noaddr idrop]; [now rewrite adrop_noaddr|]. now rewrite !drops_app.
  - intros t IH i. destruct i; try reflexivity; cbn [noaddr idrop]; [apply IH|]. now rewrite !drops_app.
  - intros kd hs ha fs IH i. destruct i; try reflexivity; cbn [noaddr idrop]; [apply drops_concat, IH|]. now rewrite !drops_app.
  - intros is_. destruct is_; constructor.
  - intros off f r IH [|[] l_]; cbn [map noaddr idrops]; constructor; auto.
  - intros off f r IH [|[] l_]; cbn [map noaddr idrops]; constructor; auto.
  - intros t IHt r IH [|i is_]; cbn [map idrops]; constructor; auto.
  - intros f lf r IH [|[] l_]; cbn [map noaddr idrops]; constructor; auto. now rewrite adrop_noaddr.
Qed.
Lemma unwinds_drops kd temps l l' :
  Forall2 (fun e e' => drops_of e = drops_of e') l l' -> drops_of (unwinds kd temps l) = drops_of (unwinds kd temps l').
Proof.
  intros H. destruct kd; cbn [unwinds].
  - apply drops_concat. now apply Forall2_rev.
  - rewrite !drops_app. f_equal. now apply drops_concat.
Qed.
Lemma irun_noaddr :
  (forall t i, drops_of (fst (irun t (noaddr i))) = drops_of (fst (irun t i))) /\
  (forall fs kd is_ cs temps, drops_of (fst (fruns kd fs (map noaddr is_) cs temps)) = drops_of (fst (fruns kd fs is_ cs temps))).
Proof.
  apply vty_flds_ind.
  - intros f i. destruct i; reflexivity.
  - intros f k i. destruct i; try reflexivity. cbn [noaddr irun fst]. now rewrite arun_noaddr.
  - intros t IH i. destruct i; try reflexivity; cbn [noaddr irun fst]. apply IH.
  - intros kd hs ha fs IH i. destruct i; try reflexivity; cbn [noaddr irun]. cbv zeta. cbn [fst]. rewrite ictrls_noaddr. apply IH.
  - intros kd is_ cs temps. destruct is_; reflexivity.
  - intros off f r IH kd [|[] l_] cs temps; cbn [map noaddr fruns fst]; auto; cbv zeta; cbn [fst]; apply IH.
  - intros off f r IH kd [|[] l_] cs temps; cbn [map noaddr fruns fst]; auto; cbv zeta; cbn [fst]; apply IH.
  - intros t IHt r IH kd [|i is_] cs temps; cbn [map fruns]; auto.
    assert (Es : snd (irun t (noaddr i)) = snd (irun t i)) by (rewrite !(proj1 irun_ival); apply ival_noaddr).
    specialize (IHt i). destruct (irun t (noaddr i)) as [e [v|]], (irun t i) as [e' [v'|]]; cbn [fst snd] in *; try discriminate.
    + rewrite !drops_app, IHt, IH. reflexivity.
    + rewrite !drops_app, IHt. f_equal. apply unwinds_drops, idrop_noaddr.
  - intros f lf r IH kd [|[] l_] cs temps; cbn [map noaddr fruns]; auto. rewrite arun_noaddr.
    destruct (arun f (lf cs) ai) as [e [xs|]]; cbn [fst]; rewrite !drops_app; f_equal; [apply IH|].
    apply unwinds_drops, idrop_noaddr.
Qed.
