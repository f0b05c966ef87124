(** Strip.v - the ghost components of initializers do not matter to the model: [strip] erases them.
    [noaddr] erases the addresses instead (used to state what an initializer means). *)
From Verif Require Export Ownership.

Definition astrip (ai : ainit) : ainit :=
  match ai with
  | ACopyAt a k _ => ACopyAt a k []
  | ACloneAt a k _ => ACloneAt a k []
  | ai => ai
  end.
Definition anoaddr (ai : ainit) : ainit :=
  match ai with
  | ACopyAt _ _ vs => ACopyFrom vs
  | ACloneAt _ _ vs => ACloneFrom vs
  | ai => ai
  end.
Fixpoint strip (i : init) : init :=
  match i with
  | ICopy a _ => ICopy a (VFix [])
  | IBox a _ => IBox a (VFix [])
  | IOwned a _ => IOwned a (VFix [])
  | IFixedCloneAt a _ => IFixedCloneAt a []
  | ISized n ai => ISized n (astrip ai)
  | IArrF ai => IArrF (astrip ai)
  | INew i => INew (strip i)
  | IRec is_ => IRec (map strip is_)
  | i => i
  end.
Fixpoint noaddr (i : init) : init :=
  match i with
  | ICopy _ v => ICopy 0 v
  | IBox _ v => IBox 0 v
  | IOwned _ v => IOwned 0 v
  | IFixedCloneAt _ v => IFixedClone v
  | ISized n ai => ISized n (anoaddr ai)
  | IArrF ai => IArrF (anoaddr ai)
  | INew i => INew (noaddr i)
  | IRec is_ => IRec (map noaddr is_)
  | i => i
  end.

Lemma bind_ext {S A B} (m m' : M S A) (k k' : A -> M S B) :
  (forall s, m s = m' s) -> (forall a s, k a s = k' a s) -> forall s, bind m k s = bind m' k' s.
Proof. intros H1 H2 s. unfold bind. rewrite H1. destruct (m' s); auto. Qed.
Lemma unwind_ext {S A} (m m' : M S A) (c c' : M S unit) :
  (forall s, m s = m' s) -> (forall s, c s = c' s) -> forall s, on_unwind m c s = on_unwind m' c' s.
Proof. intros H1 H2 s. unfold on_unwind. rewrite H1. destruct (m' s); auto. now rewrite H2. Qed.

Lemma init_ctrls_strip fs : forall is_, init_ctrls fs (map strip is_) = init_ctrls fs is_.
Proof. induction fs; intros [|i is_]; cbn [init_ctrls map]; auto. destruct i; cbn [strip]; auto. now rewrite IHfs. Qed.

Lemma layout_strip :
  (forall t i w, init_layout t (strip i) w = init_layout t i w) /\
  (forall fs is_ cs size w, init_tail fs (map strip is_) cs size w = init_tail fs is_ cs size w).
Proof.
  apply vty_flds_ind.
  - intros f i w. destruct i; reflexivity.
  - intros f k i w. destruct i; reflexivity.
  - intros t IH i w. destruct i; try reflexivity. cbn [strip init_layout]. apply IH.
  - intros kd hs ha fs IH i w. destruct i; try reflexivity. cbn [strip init_layout]. rewrite init_ctrls_strip.
    apply bind_ext; [intros; apply IH|reflexivity].
  - intros is_ cs size w. destruct is_; reflexivity.
  - intros off f r IH is_ cs size w. destruct is_ as [|[] l_]; cbn [map strip init_tail]; auto.
  - intros off f r IH is_ cs size w. destruct is_ as [|[] l_]; cbn [map strip init_tail]; auto.
  - intros t IHt r IH is_ cs size w. destruct is_ as [|i is_]; cbn [map init_tail]; auto.
    destruct (checked_add size (valign t - 1)); [|reflexivity]. apply bind_ext; [intros; apply IHt|].
    intros [l|] w'; [|reflexivity]. destruct (checked_add _ (lay_size l)); [|reflexivity]. apply bind_ext; [intros; apply IH|reflexivity].
  - intros f lf r IH is_ cs size w. destruct is_ as [|[] l_]; cbn [map strip init_tail]; auto.
    apply bind_ext; [reflexivity|]. intros n w1.
    destruct (cat_array_field_cautious f n size) as [[[x y] z]|]; [|reflexivity]. apply bind_ext; [intros; apply IH|reflexivity].
Qed.
Lemma drop_astrip f ai w : drop_ainit f (astrip ai) w = drop_ainit f ai w.
Proof. destruct ai; reflexivity. Qed.
Lemma init_astrip f ai a off n w : init_array f (astrip ai) a off n w = init_array f ai a off n w.
Proof. destruct ai; reflexivity. Qed.
Lemma drop_strip :
  (forall t i w, drop_init t (strip i) w = drop_init t i w) /\
  (forall fs, (forall is_ w, drop_flds fs (map strip is_) w = drop_flds fs is_ w) /\
              (forall is_ w, drop_flds_rev fs (map strip is_) w = drop_flds_rev fs is_ w)).
Proof.
  apply vty_flds_ind.
  - intros f i w. destruct i; reflexivity.
  - intros f k i w. destruct i; try reflexivity. apply drop_astrip.
  - intros t IH i w. destruct i; try reflexivity. cbn [strip drop_init]. apply IH.
  - intros kd hs ha fs [IH _] i w. destruct i; try reflexivity. cbn [strip drop_init]. apply IH.
  - split; intros [|i is_] w; reflexivity.
  - intros off f r [IH1 IH2]. split; intros is_ w; destruct is_ as [|[] l_]; try reflexivity;
      cbn [map strip drop_flds drop_flds_rev]; apply bind_ext; auto.
  - intros off f r [IH1 IH2]. split; intros is_ w; destruct is_ as [|[] l_]; try reflexivity;
      cbn [map strip drop_flds drop_flds_rev]; apply bind_ext; auto.
  - intros t IHt r [IH1 IH2]. split; intros is_ w; destruct is_ as [|i is_]; try reflexivity;
      cbn [map strip drop_flds drop_flds_rev]; apply bind_ext; auto.
  - intros f lf r [IH1 IH2]. split; intros is_ w; destruct is_ as [|[] l_]; try reflexivity;
      cbn [map strip drop_flds drop_flds_rev]; apply bind_ext; auto; intros; apply drop_astrip.
Qed.
Lemma unwind_strip kd temps r is_ w : unwind_rec kd temps r (map strip is_) w = unwind_rec kd temps r is_ w.
Proof. destruct kd; cbn [unwind_rec]; [apply drop_strip|]. apply bind_ext; [reflexivity|intros; apply drop_strip]. Qed.
Lemma initialize_strip :
  (forall t i dst l w, initialize t (strip i) dst l w = initialize t i dst l w) /\
  (forall fs kd is_ es dst temps w, init_fields kd fs (map strip is_) es dst temps w = init_fields kd fs is_ es dst temps w).
Proof.
  apply vty_flds_ind.
  - intros f i dst l w. destruct i; reflexivity.
  - intros f k i dst l w. destruct i; try reflexivity. cbn [strip initialize]. destruct l; try reflexivity.
    apply bind_ext; [intros; apply init_astrip|reflexivity].
  - intros t IH i dst l w. destruct i; try reflexivity. cbn [strip initialize]. apply IH.
  - intros kd hs ha fs IH i dst l w. destruct i; try reflexivity. cbn [strip initialize]. destruct l; try reflexivity.
    apply bind_ext; [intros; apply IH|reflexivity].
  - intros kd is_ es dst temps w. destruct is_; reflexivity.
  - intros off f r IH kd is_ es dst temps w. destruct is_ as [|[] l_]; cbn [map strip init_fields]; try reflexivity.
    apply bind_ext; [intros; apply IH|reflexivity].
  - intros off f r IH kd is_ es dst temps w. destruct is_ as [|[] l_]; cbn [map strip init_fields]; try reflexivity.
    apply bind_ext; [intros; apply IH|reflexivity].
  - intros t IHt r IH kd is_ es dst temps w. destruct is_ as [|i is_]; cbn [map init_fields]; [reflexivity|].
    destruct es as [|[off l] es]; [reflexivity|]. apply bind_ext; [|intros; apply IH].
    apply unwind_ext; [intros; apply IHt|intros; apply unwind_strip].
  - intros f lf r IH kd is_ es dst temps w. destruct is_ as [|[] l_]; cbn [map strip init_fields]; try reflexivity.
    destruct es as [|[off []] es]; try reflexivity. apply bind_ext; [|intros; apply IH].
    apply unwind_ext; [intros; apply init_astrip|intros; apply unwind_strip].
Qed.
Lemma vbox_new_strip t i w : vbox_new t (strip i) w = vbox_new t i w.
Proof.
  unfold vbox_new. apply bind_ext; [apply unwind_ext; intros; [apply layout_strip|apply drop_strip]|]. intros [l|] w1.
  - destruct (from_size_align (lay_size l) (valign t)).
    + apply bind_ext; [reflexivity|]. intros p w2. destruct (p =? 0); [reflexivity|]. apply bind_ext; [intros; apply initialize_strip|reflexivity].
    + apply bind_ext; [intros; apply drop_strip|reflexivity].
  - apply bind_ext; [intros; apply drop_strip|reflexivity].
Qed.
Lemma owned_new_in_strip t i w : owned_new_in t (strip i) w = owned_new_in t i w.
Proof.
  unfold owned_new_in. apply bind_ext; [apply unwind_ext; intros; [apply layout_strip|apply drop_strip]|]. intros [l|] w1.
  - destruct (from_size_align (lay_size l) (valign t)).
    + apply bind_ext; [apply unwind_ext; [reflexivity|intros; apply drop_strip]|].
      intros p w2. apply bind_ext; [intros; apply initialize_strip|reflexivity].
    + apply bind_ext; [intros; apply drop_strip|reflexivity].
  - apply bind_ext; [intros; apply drop_strip|reflexivity].
Qed.
