(** PropsStr.v - C52: in any program, every Str holds UTF-8. *)
From Verif Require Import ProgSteps PropsArray PropsProgram.
From Verif Require Export StrSpec.

(** ** the contract of from_utf8_unchecked *)
Lemma within_iff lo hi b : within lo hi b = true <-> lo <= b <= hi.
Proof. unfold within. rewrite andb_true_iff, !N.leb_le. reflexivity. Qed.
Lemma within_not lo hi b : b < lo \/ hi < b -> within lo hi b = false.
Proof. intros H. destruct (within lo hi b) eqn:E; [|reflexivity]. apply within_iff in E. lia. Qed.
Lemma three_iff a b : three a b = true <->
  a = 224 /\ 160 <= b <= 191 \/ (225 <= a <= 236 \/ 238 <= a <= 239) /\ cont b \/ a = 237 /\ 128 <= b <= 159.
Proof. unfold three, contb, cont. rewrite !orb_true_iff, !andb_true_iff, !within_iff, !N.eqb_eq. tauto. Qed.
Lemma four_iff a b : four a b = true <->
  a = 240 /\ 144 <= b <= 191 \/ 241 <= a <= 243 /\ cont b \/ a = 244 /\ 128 <= b <= 143.
Proof. unfold four, contb, cont. rewrite !orb_true_iff, !andb_true_iff, !within_iff, !N.eqb_eq. tauto. Qed.
Lemma four_three a b : four a b = true -> three a b = false.
Proof. intros H. apply four_iff in H. destruct (three a b) eqn:E; [|reflexivity]. apply three_iff in E. lia. Qed.
Lemma utf8_valid s : utf8 s -> valid_utf8 s = true.
Proof.
  assert (H1 : forall a, 127 < a -> (a <=? 127) = false) by (intros a H; now apply N.leb_gt).
  assert (C : forall b, cont b -> contb b = true) by (intros b H; apply within_iff, H).
  assert (T3 : forall a b c s, three a b = true -> cont c -> valid_utf8 s = true -> valid_utf8 (a :: b :: c :: s) = true).
  { intros a b c r H Hc Hs. cbn [valid_utf8]. pose proof H as H'. apply three_iff in H'.
    rewrite H1 by lia. rewrite (within_not 194 223 a) by lia. cbn [andb]. now rewrite H, C. }
  assert (T4 : forall a b c d s, four a b = true -> cont c -> cont d -> valid_utf8 s = true -> valid_utf8 (a :: b :: c :: d :: s) = true).
  { intros a b c d r H Hc Hd Hs. cbn [valid_utf8]. pose proof H as H'. apply four_iff in H'.
    rewrite H1 by lia. rewrite (within_not 194 223 a) by lia. cbn [andb]. rewrite (four_three a b H). cbn [andb]. now rewrite H, !C. }
  induction 1; try (apply T3; auto; apply three_iff; tauto); try (apply T4; auto; apply four_iff; tauto).
  - reflexivity.
  - cbn [valid_utf8]. now rewrite (proj2 (N.leb_le a 127) H).
  - cbn [valid_utf8]. rewrite H1 by lia. now rewrite (proj2 (within_iff 194 223 a) H), C.
Qed.
Lemma valid_is_utf8 s : valid_utf8 s = true -> utf8 s.
Proof.
  assert (C : forall b, contb b = true -> cont b) by (intros b H; apply within_iff in H; exact H).
  assert (G : forall n s, (length s <= n)%nat -> valid_utf8 s = true -> utf8 s).
  { induction n as [|n IH]; intros [|a r] Hl H; try (cbn in Hl; lia); try exact U_nil.
    cbn [length] in Hl. cbn [valid_utf8] in H. destruct (a <=? 127) eqn:Ea; [apply N.leb_le in Ea; apply U_1; [exact Ea|apply IH; [lia|exact H]]|].
    destruct r as [|b r]; [discriminate|]. cbn [length] in Hl. destruct (within 194 223 a && contb b) eqn:E2.
    { apply andb_true_iff in E2. destruct E2 as [E2 E3]. apply within_iff in E2. apply U_2; [exact E2|now apply C|]. apply IH; [lia|exact H]. }
    destruct r as [|c r]; [discriminate|]. cbn [length] in Hl. destruct (three a b && contb c) eqn:E3.
    { apply andb_true_iff in E3. destruct E3 as [E3 E4]. apply three_iff in E3. apply C in E4. assert (utf8 r) by (apply IH; [lia|exact H]).
      destruct E3 as [[-> Hb]|[[Ha Hb]|[-> Hb]]]; [now apply U_3a|now apply U_3b|now apply U_3c]. }
    destruct r as [|d r]; [discriminate|]. cbn [length] in Hl. destruct (four a b && contb c && contb d) eqn:E4; [|discriminate].
    apply andb_true_iff in E4. destruct E4 as [E4 Ed]. apply andb_true_iff in E4. destruct E4 as [E4 Ec]. apply four_iff in E4. apply C in Ec, Ed.
    assert (utf8 r) by (apply IH; [lia|exact H]). destruct E4 as [[-> Hb]|[[Ha Hb]|[-> Hb]]]; [now apply U_4a|now apply U_4b|now apply U_4c]. }
  intros H. eapply G; [reflexivity|exact H].
Qed.

(** ** every Str inside a value holds UTF-8 *)
Definition strs_in (t : vty) (v : vval) : Prop :=
  forall p k x, subval t v p = Some (TStr k, x) -> exists s, utf8 s /\ x = str_val s.
Lemma strs_fixed f v : strs_in (TFixed f) v.
Proof. intros p k x H. destruct p; cbn in H; discriminate. Qed.
Lemma strs_array f n v : strs_in (TArray f n) v.
Proof. intros p k x H. destruct p; cbn in H; discriminate. Qed.
Lemma strs_new t v : strs_in (TNew t) (VNew v) <->
  (forall k, TNew t = TStr k -> exists s, utf8 s /\ VNew v = str_val s) /\ strs_in t v.
Proof.
  split.
  - intros H. split.
    + intros k E. apply (H PHere k). cbn. now rewrite E.
    + intros p k x E. apply (H (PInner p) k). exact E.
  - intros [H1 H2] p k x E. destruct p as [|i|p|j p]; cbn [subval] in E; try discriminate.
    + injection E as E1 E2. subst t x. now apply (H1 k).
    + now apply (H2 p k).
Qed.
Lemma strs_rec kd hs ha fs vs : strs_in (TRec kd hs ha fs) (VRec vs) <->
  (forall j t v, varlen_field fs j = Some t -> nth_error vs j = Some v -> strs_in t v).
Proof.
  split.
  - intros H j t v E1 E2 p k x E. apply (H (PFld j p) k). cbn [subval]. now rewrite E1, E2.
  - intros H p k x E. destruct p as [|i|p|j p]; cbn [subval] in E; try discriminate.
    destruct (varlen_field fs j) as [t|] eqn:E1; [|discriminate]. destruct (nth_error vs j) as [v|] eqn:E2; [|discriminate].
    now apply (H j t v E1 E2 p k).
Qed.
Lemma strs_sub p : forall t v t' v', strs_in t v -> subval t v p = Some (t', v') -> strs_in t' v'.
Proof.
  induction p as [|i|p IH|j p IH]; intros t v t' v' H E; cbn [subval] in E; try discriminate.
  - now injection E as <- <-.
  - destruct t as [| |t|]; try discriminate. destruct v as [| |v|]; try discriminate. apply strs_new in H. eapply IH; [apply H|exact E].
  - destruct t as [| | |kd hs ha fs]; try discriminate. destruct v as [| | |vs]; try discriminate.
    destruct (varlen_field fs j) as [t|] eqn:E1; [|discriminate]. destruct (nth_error vs j) as [v|] eqn:E2; [|discriminate].
    eapply IH; [eapply (proj1 (strs_rec kd hs ha fs vs)); eauto|exact E].
Qed.
Lemma strs_putsub p : forall t v t' v' new, strs_in t v -> subval t v p = Some (t', v') -> ~ enters_str t p -> strs_in t' new ->
  strs_in t (putsub v p new).
Proof.
  induction p as [|i|p IH|j p IH]; intros t v t' v' new H E Hn Hnew; cbn [subval] in E; try discriminate.
  - injection E as <- <-. exact Hnew.
  - destruct t as [| |t|]; try discriminate. destruct v as [| |v|]; try discriminate. cbn [enters_str] in Hn. cbn [putsub].
    apply strs_new in H. apply strs_new. split; [intros k Ek; destruct Hn; left; eauto|]. apply (IH t v t' v' new); [apply H|exact E|tauto|exact Hnew].
  - destruct t as [| | |kd hs ha fs]; try discriminate. destruct v as [| | |vs]; try discriminate. cbn [enters_str] in Hn. cbn [putsub].
    destruct (varlen_field fs j) as [t|] eqn:E1; [|discriminate]. destruct (nth_error vs j) as [v|] eqn:E2; [|discriminate].
    apply strs_rec. intros i ti vi Ei Ev. rewrite nth_replace in Ev. destruct (Nat.eq_dec j i) as [<-|Hne].
    + rewrite E2 in Ev. cbn in Ev. injection Ev as <-. assert (ti = t) as -> by congruence.
      eapply IH; eauto. eapply (proj1 (strs_rec kd hs ha fs vs)); eauto.
    + eapply (proj1 (strs_rec kd hs ha fs vs)); eauto.
Qed.
Lemma sub_enters p : forall t v t' v', subval t v p = Some (t', v') -> enters_str t p -> exists k, t' = TArray u8 k.
Proof.
  induction p as [|i|p IH|j p IH]; intros t v t' v' E H; cbn [subval enters_str] in *; try contradiction.
  - destruct t as [| |t|]; try discriminate. destruct v as [| |v|]; try discriminate. destruct H as [(k & Hk)|H]; [|eapply IH; eauto].
    injection Hk as ->. destruct p; cbn [subval] in E; try discriminate. injection E as <- <-. eauto.
  - destruct t as [| | |kd hs ha fs]; try discriminate. destruct v as [| | |vs]; try discriminate.
    destruct (varlen_field fs j) as [t|] eqn:E1; [|discriminate]. destruct (nth_error vs j) as [v|] eqn:E2; [|discriminate]. eapply IH; eauto.
Qed.
Lemma mut_leaf_var fs : forall j p t f, varlen_field fs j = Some t -> mut_leaf_fld fs j p = Some f -> mut_leaf t p = Some f.
Proof.
  induction fs as [|off g r IH|off g r IH|u r IH|g lf r IH]; intros [|j] p t f; cbn [varlen_field mut_leaf_fld]; try discriminate; eauto. congruence.
Qed.
Lemma strs_put q : forall t v f new, strs_in t v -> mut_leaf t q = Some f -> ~ enters_str t q -> strs_in t (put v q new).
Proof.
  induction q as [|i|q IH|j q IH]; intros t v f new H Hm Hn; destruct t as [g|g k|t|kd hs ha fs]; cbn [mut_leaf] in Hm; try discriminate;
    try apply strs_fixed; try apply strs_array.
  - cbn [enters_str] in Hn. destruct v as [| |v|]; cbn [put]; try exact H. apply strs_new in H. apply strs_new.
    split; [intros k Ek; destruct Hn; left; eauto|]. apply (IH t v f new); [apply H|exact Hm|tauto].
  - destruct v as [| | |vs]; cbn [put]; try exact H. destruct (nth_error vs j) as [v|] eqn:E2; [|exact H].
    apply strs_rec. intros i ti vi Ei Ev. rewrite nth_replace in Ev. pose proof (proj1 (strs_rec kd hs ha fs vs) H) as Hr.
    destruct (Nat.eq_dec j i) as [<-|Hne]; [|eapply Hr; eauto]. rewrite E2 in Ev. cbn in Ev. injection Ev as <-.
    cbn [enters_str] in Hn. rewrite Ei in Hn. eapply IH; eauto. eapply mut_leaf_var; eauto.
Qed.
Lemma with_ctrls_var fs : forall vs news j t, varlen_field fs j = Some t -> nth_error (with_ctrls fs vs news) j = nth_error vs j.
Proof.
  induction fs as [|off g r IH|off g r IH|u r IH|g lf r IH]; intros vs news j t H; cbn [varlen_field with_ctrls] in *; try discriminate.
  all: destruct vs as [|v vs], j as [|j]; try discriminate; try reflexivity; try (destruct news; cbn [nth_error]; eauto; fail); try (cbn [nth_error]; eauto; fail).
Qed.
Lemma str_clone k x y : clone_val (TStr k) x = Some y -> forall s, x = str_val s -> y = str_val s.
Proof. intros E s ->. rewrite (proj2 (clone_u8 s) k) in E. congruence. Qed.
Lemma strs_clone :
  (forall t v v', clone_val t v = Some v' -> strs_in t v -> strs_in t v') /\
  (forall fs vs vs', clone_vals fs vs = Some vs' -> (forall j t v, varlen_field fs j = Some t -> nth_error vs j = Some v -> strs_in t v) ->
     forall j t v, varlen_field fs j = Some t -> nth_error vs' j = Some v -> strs_in t v).
Proof.
  apply vty_flds_ind.
  - intros f v v' _ _. apply strs_fixed.
  - intros f k v v' _ _. apply strs_array.
  - intros t IH v v' E H. destruct v as [| |v|]; cbn [clone_val] in E; try discriminate. destruct (clone_val t v) as [u|] eqn:Eu; [|discriminate].
    injection E as <-. apply strs_new in H. destruct H as [H1 H2]. apply strs_new. split; [|eapply IH; eauto].
    intros k Ek. destruct (H1 k Ek) as (s & Hs & Ev). exists s. split; [exact Hs|]. apply (str_clone k (VNew v) (VNew u)); [|exact Ev].
    rewrite <- Ek. cbn [clone_val]. now rewrite Eu.
  - intros kd hs ha fs IH v v' E H. destruct v as [| | |vs]; cbn [clone_val] in E; try discriminate. destruct (clone_vals fs vs) as [us|] eqn:Eu; [|discriminate].
    injection E as <-. apply strs_rec. eapply IH; eauto. now apply (strs_rec kd hs ha fs vs).
  - intros vs vs' _ _ j t v Hj. destruct j; discriminate.
  - intros off f r IH vs vs' E. discriminate.
  - intros off f r IH vs vs' E. discriminate.
  - intros t IHt r IH vs vs' E H j u x Hj Hx. cbn [clone_vals] in E. destruct vs as [|v vs]; [discriminate|].
    destruct (clone_val t v) as [v1|] eqn:E1; [|discriminate]. destruct (clone_vals r vs) as [vs1|] eqn:E2; [|discriminate]. injection E as <-.
    destruct j as [|j]; cbn [varlen_field nth_error] in *.
    + injection Hj as <-. injection Hx as <-. apply (IHt v v1 E1). apply (H 0%nat); reflexivity.
    + apply (IH vs vs1 E2) with j; auto. intros i ti vi Hi Hv. apply (H (S i)); auto.
  - intros f lf r IH vs vs' E. discriminate.
Qed.

(** ** every Str a program holds *)
Definition texts (σ : list aval) : Prop :=
  forall pl k x, at_place σ pl = Some (TStr k, x) -> exists s, utf8 s /\ x = str_val s.
Definition aval_strs (u : aval) : Prop :=
  match u with ABox t v | AOwn t v => strs_in t v | ASeq t _ vs _ => Forall (strs_in t) vs | ADead => True end.
Lemma texts_iff σ : texts σ <-> forall h u, nth_error σ h = Some u -> aval_strs u.
Proof.
  split.
  - intros H h u Hu. destruct u as [t v|t v|t c vs old|]; cbn [aval_strs]; [| | |exact I].
    + intros p k x E. apply (H (PlObj h p) k). cbn [at_place]. now rewrite Hu.
    + intros p k x E. apply (H (PlObj h p) k). cbn [at_place]. now rewrite Hu.
    + apply Forall_forall. intros v Hv. apply In_nth_error in Hv. destruct Hv as (i & Ei).
      intros p k x E. apply (H (PlElem h i p) k). cbn [at_place]. now rewrite Hu, Ei.
  - intros H pl k x E.
    assert (Hel : forall t c vs old i v p h, nth_error σ h = Some (ASeq t c vs old) -> nth_error vs i = Some v -> subval t v p = Some (TStr k, x) ->
      exists s, utf8 s /\ x = str_val s).
    { intros t c vs old i v p h Hh Hi Hs. pose proof (H h _ Hh) as Hf. cbn [aval_strs] in Hf. rewrite Forall_forall in Hf.
      eapply (Hf v (nth_error_In _ _ Hi)); eauto. }
    destruct pl as [h p|h i p|h u o p]; cbn [at_place] in E.
    + destruct (nth_error σ h) as [[t v|t v|t c vs old|]|] eqn:Eh; try discriminate; eapply (H h _ Eh); exact E.
    + destruct (nth_error σ h) as [[t v|t v|t c vs old|]|] eqn:Eh; try discriminate. destruct (nth_error vs i) as [v|] eqn:Ei; [|discriminate]. eapply Hel; eauto.
    + destruct (nth_error σ h) as [[t v|t v|t c vs old|]|] eqn:Eh; try discriminate. destruct (u || c); [|discriminate].
      destruct (index_of o (starts t vs 0)) as [i|]; [|discriminate]. destruct (nth_error vs i) as [v|] eqn:Ei; [|discriminate]. eapply Hel; eauto.
Qed.
Lemma texts_place σ pl t v : texts σ -> at_place σ pl = Some (t, v) -> strs_in t v.
Proof.
  intros H E. rewrite texts_iff in H.
  destruct pl as [h p|h i p|h u o p]; cbn [at_place] in E.
  - destruct (nth_error σ h) as [[t0 v0|t0 v0|t0 c vs old|]|] eqn:Eh; try discriminate; eapply strs_sub; [apply (H h _ Eh)|exact E|apply (H h _ Eh)|exact E].
  - destruct (nth_error σ h) as [[t0 v0|t0 v0|t0 c vs old|]|] eqn:Eh; try discriminate. destruct (nth_error vs i) as [v0|] eqn:Ei; [|discriminate].
    pose proof (H h _ Eh) as Hf. cbn [aval_strs] in Hf. rewrite Forall_forall in Hf. eapply strs_sub; [apply (Hf v0 (nth_error_In _ _ Ei))|exact E].
  - destruct (nth_error σ h) as [[t0 v0|t0 v0|t0 c vs old|]|] eqn:Eh; try discriminate. destruct (u || c); [|discriminate].
    destruct (index_of o (starts t0 vs 0)) as [i|]; [|discriminate]. destruct (nth_error vs i) as [v0|] eqn:Ei; [|discriminate].
    pose proof (H h _ Eh) as Hf. cbn [aval_strs] in Hf. rewrite Forall_forall in Hf. eapply strs_sub; [apply (Hf v0 (nth_error_In _ _ Ei))|exact E].
Qed.
Lemma texts_replace σ h u : texts σ -> aval_strs u -> texts (replace_nth σ h u).
Proof.
  rewrite !texts_iff. intros H Hu i x. rewrite nth_replace. destruct (Nat.eq_dec h i) as [<-|]; [|apply H].
  destruct (nth_error σ h); [|discriminate]. cbn. intros E. now injection E as <-.
Qed.
Lemma texts_kill hs : forall σ, texts σ -> texts (kill_vals σ hs).
Proof.
  unfold kill_vals. induction hs as [|h hs IH]; intros σ H; [exact H|]. cbn [fold_left]. apply IH, texts_replace; [exact H|exact I].
Qed.
Lemma texts_app σ u : texts σ -> aval_strs u -> texts (σ ++ [u]).
Proof.
  rewrite !texts_iff. intros H Hu i x E. destruct (Nat.lt_ge_cases i (length σ)) as [Hl|Hl].
  - rewrite nth_error_app1 in E by exact Hl. eapply H; eauto.
  - rewrite nth_error_app2 in E by exact Hl. destruct (i - length σ)%nat as [|[|?]]; cbn in E; try discriminate. now injection E as <-.
Qed.
Lemma texts_put σ pl t0 t v new : texts σ -> place_type σ pl = Some t0 -> at_place σ pl = Some (t, v) ->
  ~ enters_str t0 (place_path pl) -> strs_in t new -> texts (put_place σ pl new).
Proof.
  intros H Ht E Hn Hnew. pose proof (proj1 (texts_iff σ) H) as H'.
  assert (Hel : forall c vs old i v0 p h, nth_error σ h = Some (ASeq t0 c vs old) -> nth_error vs i = Some v0 -> subval t0 v0 p = Some (t, v) ->
    ~ enters_str t0 p -> texts (replace_nth σ h (ASeq t0 c (replace_nth vs i (putsub v0 p new)) old))).
  { intros c vs old i v0 p h Hh Hi Hs Hp. pose proof (H' h _ Hh) as Hf. cbn [aval_strs] in Hf. apply texts_replace; [exact H|]. cbn [aval_strs].
    apply Forall_forall. intros x Hx. apply In_nth_error in Hx. destruct Hx as (i' & Ei). rewrite nth_replace in Ei. rewrite Forall_forall in Hf.
    destruct (Nat.eq_dec i i') as [<-|]; [|eapply Hf, nth_error_In; eauto]. rewrite Hi in Ei. cbn in Ei. injection Ei as <-.
    eapply strs_putsub; eauto. eapply Hf, nth_error_In; eauto. }
  destruct pl as [h p|h i p|h u o p]; unfold place_type in Ht; cbn [at_place put_place place_path place_handle] in *.
  - destruct (nth_error σ h) as [[t1 v1|t1 v1|t1 c vs old|]|] eqn:Eh; try discriminate; injection Ht as ->;
      (apply texts_replace; [exact H|]; cbn [aval_strs]; eapply strs_putsub; eauto; apply (H' h _ Eh)).
  - destruct (nth_error σ h) as [[t1 v1|t1 v1|t1 c vs old|]|] eqn:Eh; try discriminate. injection Ht as ->.
    destruct (nth_error vs i) as [v0|] eqn:Ei; [|discriminate]. eapply Hel; eauto.
  - destruct (nth_error σ h) as [[t1 v1|t1 v1|t1 c vs old|]|] eqn:Eh; try discriminate. injection Ht as ->. destruct (u || c); [|discriminate].
    destruct (index_of o (starts t0 vs 0)) as [i|]; [|discriminate]. destruct (nth_error vs i) as [v0|] eqn:Ei; [|discriminate]. eapply Hel; eauto.
Qed.
(** A place whose object is not an array of bytes is not inside a Str. *)
Lemma place_not_inside σ pl t v : at_place σ pl = Some (t, v) -> (forall k, t <> TArray u8 k) ->
  exists t0, place_type σ pl = Some t0 /\ ~ enters_str t0 (place_path pl).
Proof.
  intros E Hne. assert (G : forall t0 v0 p, subval t0 v0 p = Some (t, v) -> ~ enters_str t0 p).
  { intros t0 v0 p Hs Hen. destruct (sub_enters p t0 v0 t v Hs Hen) as (k & Hk). now apply (Hne k). }
  destruct pl as [h p|h i p|h u o p]; unfold place_type; cbn [at_place place_path place_handle] in *.
  - destruct (nth_error σ h) as [[t1 v1|t1 v1|t1 c vs old|]|]; try discriminate; eauto.
  - destruct (nth_error σ h) as [[t1 v1|t1 v1|t1 c vs old|]|]; try discriminate. destruct (nth_error vs i) as [v0|]; [|discriminate]. eauto.
  - destruct (nth_error σ h) as [[t1 v1|t1 v1|t1 c vs old|]|]; try discriminate. destruct (u || c); [|discriminate].
    destruct (index_of o (starts t1 vs 0)) as [i|]; [|discriminate]. destruct (nth_error vs i) as [v0|]; [|discriminate]. eauto.
Qed.
Lemma place_has_type σ pl t v : at_place σ pl = Some (t, v) -> exists t0, place_type σ pl = Some t0.
Proof.
  intros E. destruct pl as [h p|h i p|h u o p]; unfold place_type; cbn [at_place place_handle] in *;
    destruct (nth_error σ h) as [[t1 v1|t1 v1|t1 c vs old|]|]; try discriminate; eauto.
Qed.

(** The value that an initializer expression produces. *)
Lemma den_strs w sl σ n : Inv w sl σ n -> texts σ ->
  (forall t p i, den σ t p i -> from_text σ t p -> forall v, ival t i = Some v -> strs_in t v) /\
  (forall fs ps is_, dens σ fs ps is_ -> from_text_flds σ fs ps -> forall cs vs, ivals fs is_ cs = Some vs ->
     forall j t v, varlen_field fs j = Some t -> nth_error vs j = Some v -> strs_in t v).
Proof.
  intros HI HT. apply (den_mut σ
    (fun t p i => from_text σ t p -> forall v, ival t i = Some v -> strs_in t v)
    (fun fs ps is_ => from_text_flds σ fs ps -> forall cs vs, ivals fs is_ cs = Some vs ->
       forall j t v, varlen_field fs j = Some t -> nth_error vs j = Some v -> strs_in t v)).
  - intros. apply strs_fixed.
  - intros. apply strs_fixed.
  - intros. apply strs_array.
  - intros. apply strs_array.
  - intros t p i Hd IH [Hs Hp] v E. cbn [ival] in E. destruct (ival t i) as [u|] eqn:Eu; [|discriminate]. injection E as <-.
    apply strs_new. split; [|now apply IH]. intros k Ek. destruct (Hs k Ek) as (s & H8 & Ep). exists s. split; [exact H8|].
    assert (El : len (map (fun b => [By b]) s) = len s) by (unfold len; now rewrite map_length).
    injection Ek as ->. destruct Ep as [->|(pl & j & lo & xs & -> & He & Hsub)]; inversion Hd; subst; cbn [ival arun] in Eu.
    + rewrite El, N.eqb_refl in Eu. cbn in Eu. now injection Eu as <-.
    + match goal with H : slice_den _ _ _ _ _ _ _ _ |- _ => inversion H as [ys Hy Hle Hdr E1 E2|]; subst end.
      rewrite He in Hy. injection Hy as <-. cbn [arun] in Eu.
      assert (En : N.to_nat (len s) = length s) by (unfold len; lia). rewrite En, Hsub, El, N.eqb_refl in Eu. cbn in Eu. now injection Eu as <-.
  - intros kd hs ha fs ps is_ Hd IH Hp v E. cbn [ival] in E. destruct (ivals fs is_ (ictrls fs is_)) as [vs|] eqn:Ev; [|discriminate]. injection E as <-.
    apply strs_rec. eapply IH; eauto.
  - intros t h v E _ u Eu. assert (v = u) as <- by (destruct t; cbn in Eu; congruence). apply (proj1 (texts_iff σ) HT h _ E).
  - intros t pl v E Hpl _ u Eu. assert (v = u) as <- by (destruct t; cbn in Eu; congruence). eapply texts_place; eauto.
  - intros t pl v E Hc _ u Eu. destruct (resolve_ok w sl σ n pl t v HI E) as (a & s0 & v0 & _ & _ & Ho & _).
    rewrite (proj1 clone_init_val t v Hc (proj1 Ho)) in Eu. eapply (proj1 strs_clone); [exact Eu|]. eapply texts_place; eauto.
  - intros _ cs vs _ j t v Hj. destruct j; discriminate.
  - intros off f r b ps is_ Hb Hd IH Hp cs vs E j t v Hj Hv. cbn [ivals] in E. destruct (ivals r is_ cs) as [us|] eqn:Eu; [|discriminate]. injection E as <-.
    destruct j as [|j]; cbn [varlen_field nth_error from_text_flds] in *; [discriminate|]. eapply IH; eauto.
  - intros off f r b ps is_ Hb Hd IH Hp cs vs E j t v Hj Hv. cbn [ivals] in E. destruct (ivals r is_ cs) as [us|] eqn:Eu; [|discriminate]. injection E as <-.
    destruct j as [|j]; cbn [varlen_field nth_error from_text_flds] in *; [discriminate|]. eapply IH; eauto.
  - intros t r p i ps is_ Hd IHd Hds IH [Hp Hps] cs vs E j u v Hj Hv. cbn [ivals] in E. destruct (ival t i) as [x|] eqn:Ex; [|discriminate].
    destruct (ivals r is_ cs) as [us|] eqn:Eu; [|discriminate]. injection E as <-.
    destruct j as [|j]; cbn [varlen_field nth_error] in *; [|eapply IH; eauto]. injection Hj as <-. injection Hv as <-. now apply IHd.
  - intros f lf r ai ps is_ Ha _ Hd IH Hp cs vs E j t v Hj Hv. cbn [ivals] in E. destruct (snd (arun f (lf cs) ai)) as [xs|]; [|discriminate].
    destruct (ivals r is_ cs) as [us|] eqn:Eu; [|discriminate]. injection E as <-.
    destruct j as [|j]; cbn [varlen_field nth_error from_text_flds] in *; [discriminate|]. eapply IH; eauto.
  - intros f lf r cl pl j0 lo l ai ps is_ Ha Hd IH Hp cs vs E j t v Hj Hv. cbn [ivals] in E. destruct (snd (arun f (lf cs) ai)) as [xs|]; [|discriminate].
    destruct (ivals r is_ cs) as [us|] eqn:Eu; [|discriminate]. injection E as <-.
    destruct j as [|j]; cbn [varlen_field nth_error from_text_flds] in *; [discriminate|]. eapply IH; eauto.
Qed.
Lemma place_type_put σ pl pl' v : place_type (put_place σ pl v) pl' = place_type σ pl'.
Proof.
  unfold place_type. destruct pl as [h p|h k p|h b o p]; cbn [put_place].
  - destruct (nth_error σ h) as [[t0 v0|t0 v0|t0 c vs old|]|] eqn:Eh; try reflexivity;
      rewrite nth_replace_nth; destruct (Nat.eq_dec h (place_handle pl')) as [<-|]; try reflexivity; rewrite Eh; reflexivity.
  - destruct (nth_error σ h) as [[t0 v0|t0 v0|t0 c vs old|]|] eqn:Eh; try reflexivity. destruct (nth_error vs k); try reflexivity.
    rewrite nth_replace_nth; destruct (Nat.eq_dec h (place_handle pl')) as [<-|]; try reflexivity; rewrite Eh; reflexivity.
  - destruct (nth_error σ h) as [[t0 v0|t0 v0|t0 c vs old|]|] eqn:Eh; try reflexivity. destruct (index_of _ _) as [k|]; try reflexivity. destruct (nth_error vs k); try reflexivity.
    rewrite nth_replace_nth; destruct (Nat.eq_dec h (place_handle pl')) as [<-|]; try reflexivity; rewrite Eh; reflexivity.
Qed.
Lemma plain_texts w sl σ n o r σ' d : Inv w sl σ n -> texts σ -> allowed_s σ (SPlain o) -> astep σ o r σ' d -> texts σ'.
Proof.
  intros HI HT Hal Hs. inversion Hal as [o' Ha Hx| |]; subst. pose proof (proj1 (den_strs w sl σ n HI HT)) as HD.
  destruct Hs; try exact HT; try (apply texts_kill; exact HT).
  - apply texts_app; [now apply texts_kill|]. cbn [aval_strs]. eapply HD; eauto.
  - apply texts_app; [now apply texts_kill|]. cbn [aval_strs]. eapply HD; eauto.
  - apply texts_app; [exact HT|]. cbn [aval_strs]. constructor.
  - apply texts_replace; [now apply texts_kill|]. cbn [aval_strs].
    pose proof (proj1 (texts_iff σ) HT h _ H) as Hf. cbn [aval_strs] in Hf. apply Forall_app. split; [exact Hf|]. constructor; [|constructor].
    eapply HD; eauto.
  - destruct (place_has_type σ pl t v H) as (t0 & Et0). destruct (Hx t0 t v Et0 H) as [Hn1 Hn2]. eapply texts_put; eauto.
    eapply strs_put; eauto. eapply texts_place; eauto.
  - destruct (place_not_inside σ pl _ _ H ltac:(discriminate)) as (t0 & Et0 & Hn). eapply texts_put; eauto.
    pose proof (texts_place _ _ _ _ HT H) as Hr. apply strs_rec. intros j t v Hj Hv. rewrite (with_ctrls_var fs vs news j t Hj) in Hv.
    eapply (proj1 (strs_rec KStruct hs ha fs vs)); eauto.
  - apply texts_replace; [exact HT|]. cbn [aval_strs]. constructor.
  - apply texts_replace; [exact HT|]. cbn [aval_strs]. constructor.
  - apply texts_replace; [exact HT|]. cbn [aval_strs]. constructor.
  - destruct (place_has_type σ pl t v H) as (t0 & Et0). destruct (Hx t0 t v Et0 H) as (Hn1 & Hn2 & Hn3).
    inversion Ha as [| | | | | | | | | | | | | | | | | | |? ? ? t1 v1 f Hp1 Hm1 Hm2| |]; subst. rewrite H in Hp1. injection Hp1 as <- <-.
    eapply texts_put; eauto. eapply strs_put; eauto. eapply strs_put; eauto. eapply texts_place; eauto.
  - inversion Ha as [| | | | | | | | | | | | | | | | | | | |? ? ? ? t1 v1 t1' v1' f Hp Hp' Haw Hm1 Hm2|]; subst.
    rewrite H in Hp; rewrite H0 in Hp'; injection Hp as <- <-; injection Hp' as <- <-.
    destruct (place_has_type σ pl t v H) as (t0 & Et0). destruct (proj1 Hx t0 t v Et0 H) as (Hn1 & Hn2).
    destruct (place_has_type σ pl' t' v' H0) as (t0' & Et0'). destruct (proj2 Hx t0' t' v' Et0' H0) as (Hn1' & Hn2').
    pose proof (at_place_away σ pl pl' _ _ _ _ _ H (put_shape y q v : vshape (put v q y) = vshape v) H0 Haw) as Hp1.
    assert (HT1 : texts (put_place σ pl (put v q y))) by (eapply texts_put; eauto; eapply strs_put; eauto; eapply texts_place; eauto).
    eapply (texts_put _ pl' t0'); eauto; [now rewrite place_type_put|]. eapply strs_put; eauto. eapply texts_place; eauto.
  - inversion Ha as [| | | | | | | | | | | | | | | | | | | | |U ? ? t1 v1 v1' Hp Hp' Haw Hun]; subst.
    rewrite H in Hp; rewrite H0 in Hp'; injection Hp as <- <-; injection Hp' as <-.
    assert (Hne : forall k, t <> TArray u8 k) by (intros k ->; discriminate).
    destruct (place_not_inside σ pl _ _ H Hne) as (t0 & Et0 & Hn). destruct (place_not_inside σ pl' _ _ H0 Hne) as (t0' & Et0' & Hn').
    destruct (resolve_ok w sl σ n pl _ _ HI H) as (a & s1 & v1 & _ & _ & Ho & _).
    destruct (resolve_ok w sl σ n pl' _ _ HI H0) as (a' & s1' & v1' & _ & _ & Ho' & _).
    pose proof (proj1 (unpin_vshape U t v v' Hun (proj1 Ho) (proj1 Ho'))) as Esh.
    pose proof (at_place_away σ pl pl' _ _ _ _ _ H (eq_sym Esh) H0 Haw) as Hp1.
    assert (HT1 : texts (put_place σ pl v')) by (eapply texts_put; eauto; eapply texts_place; eauto).
    eapply (texts_put _ pl' t0'); eauto; [now rewrite place_type_put|]. exact (texts_place σ pl t v HT H).
Qed.

(** ** reading and changing the text of one Str *)
Lemma str_text_ok k w a s : obj_at w (TStr k) a (str_val s) -> utf8 s -> str_text k a w = Ok s w.
Proof. intros Ho H8. unfold str_text. step (C33_deref k w a s Ho). now rewrite (utf8_valid s H8). Qed.
Lemma nth_mid {A} (pre : list A) x r : nth_error (pre ++ x :: r) (length pre) = Some x.
Proof. rewrite nth_error_app2 by lia. now rewrite Nat.sub_diag. Qed.
Lemma replace_mid {A} (pre : list A) x r y : replace_nth (pre ++ x :: r) (length pre) y = pre ++ y :: r.
Proof. induction pre as [|z pre IH]; [reflexivity|]. cbn [app length replace_nth]. now rewrite IH. Qed.
Lemma write_bytes_ok k a : forall bs pre cur w,
  obj_at w (TStr k) a (str_val (pre ++ cur)) -> length bs = length cur ->
  exists w', write_bytes k a (len pre) bs w = Ok tt w' /\ w_blocks w' = w_blocks w /\ w_log w' = w_log w /\
    same_outside (w_mem w) (w_mem w') a (vsize (TStr k) (str_val (pre ++ cur))) /\ obj_at w' (TStr k) a (str_val (pre ++ bs)) /\
    vshape (str_val (pre ++ bs)) = vshape (str_val (pre ++ cur)).
Proof.
  induction bs as [|b bs IH]; intros pre cur w Ho Hl; (destruct cur as [|c cur]; try discriminate).
  - exists w. split; [reflexivity|]. split; [reflexivity|]. split; [reflexivity|]. split; [intros x _; reflexivity|]. split; [exact Ho|reflexivity].
  - cbn [write_bytes].
    pose proof (assign_ok (TStr k) w a _ (PInner (PIdx (len pre))) u8 [By b] u8_ok Ho eq_refl eq_refl) as HA.
    unfold str_val in HA at 1. cbn [leaf] in HA. rewrite map_app in HA. cbn [map] in HA.
    replace (N.to_nat (len pre)) with (length (map (fun b => [By b]) pre)) in HA by (rewrite map_length; unfold len; lia).
    rewrite nth_mid in HA. destruct HA as (w1 & o & E1 & Hle & U & _ & Ho1 & Hsh). step E1.
    pose proof (upd_blocks _ _ _ _ _ _ U) as Ub. rewrite without_nil in Ub.
    assert (Ep : put (str_val (pre ++ c :: cur)) (PInner (PIdx (len pre))) [By b] = str_val ((pre ++ [b]) ++ cur)).
    { unfold str_val. cbn [put]. do 2 f_equal. rewrite <- app_assoc, !map_app. cbn [map app].
      replace (N.to_nat (len pre)) with (length (map (fun b => [By b]) pre)) by (rewrite map_length; unfold len; lia). apply replace_mid. }
    rewrite Ep in Ho1, Hsh. destruct (IH (pre ++ [b]) cur w1 Ho1 ltac:(cbn in Hl; lia)) as (w2 & E2 & B2 & L2 & M2 & Ho2 & Hsh2).
    replace (len (pre ++ [b])) with (len pre + 1) in E2 by (unfold len; rewrite app_length; cbn; lia).
    exists w2. split; [exact E2|]. split; [congruence|]. split.
    { rewrite L2, (upd_log_eq _ _ _ _ _ _ U). unfold drop_events. cbn. now rewrite app_nil_r. }
    assert (Esz : vsize (TStr k) (str_val ((pre ++ [b]) ++ cur)) = vsize (TStr k) (str_val (pre ++ c :: cur))) by (unfold vsize; now rewrite Hsh).
    split; [|split].
    + intros x Hx. rewrite M2 by (rewrite Esz; exact Hx). apply (upd_mem _ _ _ _ _ _ U). lia.
    + now rewrite <- app_assoc in Ho2.
    + rewrite <- Hsh, <- Hsh2. now rewrite <- app_assoc.
Qed.
Lemma str_edit_ok k w a s g : obj_at w (TStr k) a (str_val s) -> utf8 s -> length (g s) = length s ->
  exists w', str_edit k a g w = Ok tt w' /\ w_blocks w' = w_blocks w /\ w_log w' = w_log w /\
    same_outside (w_mem w) (w_mem w') a (vsize (TStr k) (str_val s)) /\ obj_at w' (TStr k) a (str_val (g s)) /\
    vshape (str_val (g s)) = vshape (str_val s).
Proof.
  intros Ho H8 Hl. destruct (write_bytes_ok k a (g s) [] s w Ho Hl) as (w' & E & H).
  exists w'. split; [|exact H]. unfold str_edit. step (str_text_ok k w a s Ho H8). exact E.
Qed.

(** ** programs *)
Definition step_ok_s (σ : list aval) (o : sop) (w : world) (r : soutcome) (w' : world) (sl' : list slot) (n' : nat) : Prop :=
  exists σ' evs, astep_s σ o r σ' (drops_of evs) /\ w_log w' = w_log w ++ evs /\ Inv w' sl' σ' n' /\ texts σ'.
Lemma exec_s_ok w sl σ n o : Inv w sl σ n -> texts σ -> allowed_s σ o ->
  match exec_s o (w, sl) with
  | Ok r (w', sl') => step_ok_s σ o w (SDone r) w' sl' (match o with SPlain (OForget _) => S n | _ => n end)
  | Panic (w', sl') => step_ok_s σ o w SPanicked w' sl' (match o with SPlain (ONewBox _ _) => S n | _ => n end)
  | UB u => u = UNull /\ exists o', o = SPlain o' /\ refused_box w σ o'
  end.
Proof.
  intros HI HT Hal. destruct o as [o|pl|pl g].
  - assert (Ha : allowed σ o) by (inversion Hal; assumption). pose proof (exec_ok w sl σ n o HI Ha) as H. cbn [exec_s].
    destruct (exec o (w, sl)) as [r [w' sl']|[w' sl']|u]; cbn [step_res] in H.
    + destruct H as (σ' & evs & A & L & I'). exists σ', evs. split; [now constructor|]. split; [exact L|].
      split; [destruct o; exact I'|]. exact (plain_texts w sl σ n o _ _ _ HI HT Hal A).
    + destruct H as (σ' & evs & A & L & I'). exists σ', evs. split; [now constructor|]. split; [exact L|].
      split; [destruct o; exact I'|]. exact (plain_texts w sl σ n o _ _ _ HI HT Hal A).
    + destruct H as [-> H]. split; [reflexivity|]. eauto.
  - inversion Hal as [|pl' k v Hp|]; subst. destruct (HT pl k v Hp) as (s & H8 & ->).
    destruct (resolve_ok w sl σ n pl _ _ HI Hp) as (a & s0 & v0 & E & Hwf & Ho & _).
    cbn [exec_s]. step E. cbn [fst snd TStr]. rewrite (str_text_ok k w a s Ho H8).
    exists σ, []. split; [eapply AS_text; eauto|]. split; [now rewrite app_nil_r|]. auto.
  - inversion Hal as [| |pl' k v g' Hp Hg]; subst. destruct (HT pl k v Hp) as (s & H8 & ->). destruct (Hg s H8) as [Hg8 Hgl].
    destruct (resolve_ok w sl σ n pl _ _ HI Hp) as (a & s0 & v0 & E & Hwf & Ho & Hah & Hst & Hput).
    destruct (str_edit_ok k w a s g Ho H8 Hgl) as (w' & Ew & Hb & Hlog & Hm & Ho' & Hsh).
    cbn [exec_s]. step E. cbn [fst snd TStr]. rewrite Ew.
    destruct (Hput w' _ Hb Hm Ho' Hsh) as (v1 & Ep & Hr1 & Hb1). pose proof HI as (Hbl & _ & Hrep & _).
    exists (put_place σ pl (str_val (g s))), []. split; [eapply AS_edit; eauto|]. split; [now rewrite app_nil_r|]. split.
    + rewrite Ep. apply (inv_inplace w sl σ n w' _ s0 v0 v1); auto. eapply storage_untouched; eauto.
    + destruct (place_not_inside σ pl _ _ Hp ltac:(discriminate)) as (t0 & Et0 & Hn). eapply texts_put; eauto.
      apply strs_new. split; [|apply strs_array]. intros k' _. eauto.
Qed.
Lemma str_val_inj s s' : str_val s = str_val s' -> s = s'.
Proof.
  unfold str_val. intros E. injection E as E. revert s' E. induction s as [|b s IH]; intros [|b' s'] E; cbn in E; try discriminate; [reflexivity|].
  injection E as -> E. f_equal. auto.
Qed.
Lemma astep_s_fun σ o r σ1 d1 σ2 d2 : astep_s σ o r σ1 d1 -> astep_s σ o r σ2 d2 -> σ1 = σ2.
Proof.
  intros H1 H2. inversion H1; subst; inversion H2; subst; try reflexivity; try (eapply astep_fun; eauto; fail).
  match goal with A : at_place σ pl = Some (_, str_val ?s1), B : at_place σ pl = Some (_, str_val ?s2) |- _ =>
    assert (s1 = s2) as -> by (apply str_val_inj; congruence) end. reflexivity.
Qed.
Lemma reach_s_inv w sl σ n : reach_s w sl σ n -> Inv w sl σ n /\ texts σ.
Proof.
  induction 1 as [w Hb|w sl σ n o r w' sl' σ' d H [IH HT] Hal E Hs|w sl σ n o w' sl' σ' d H [IH HT] Hal E Hs].
  - split; [apply reach_inv; now constructor|]. apply texts_iff. intros [|h] u Hu; discriminate.
  - pose proof (exec_s_ok w sl σ n o IH HT Hal) as HS. rewrite E in HS. destruct HS as (σ1 & evs & A1 & _ & A2 & A3).
    now rewrite (astep_s_fun _ _ _ _ _ _ _ Hs A1).
  - pose proof (exec_s_ok w sl σ n o IH HT Hal) as HS. rewrite E in HS. destruct HS as (σ1 & evs & A1 & _ & A2 & A3).
    now rewrite (astep_s_fun _ _ _ _ _ _ _ Hs A1).
Qed.

Lemma subval_putsub p : forall t v t' v' new, subval t v p = Some (t', v') -> subval t (putsub v p new) p = Some (t', new).
Proof.
  induction p as [|i|p IH|j p IH]; intros t v t' v' new E; cbn [subval putsub] in *; try discriminate.
  - now injection E as <- <-.
  - destruct t as [| |t|]; try discriminate. destruct v as [| |v|]; try discriminate. eapply IH; eauto.
  - destruct t as [| | |kd hs ha fs]; try discriminate. destruct v as [| | |vs]; try discriminate.
    destruct (varlen_field fs j) as [t|] eqn:E1; [|discriminate]. destruct (nth_error vs j) as [v|] eqn:E2; [|discriminate].
    rewrite nth_replace. destruct (Nat.eq_dec j j); [|congruence]. rewrite E2. cbn [option_map]. eapply IH; eauto.
Qed.
Lemma shape_putsub p : forall t v t' v' new, subval t v p = Some (t', v') -> vshape new = vshape v' -> vshape (putsub v p new) = vshape v.
Proof.
  induction p as [|i|p IH|j p IH]; intros t v t' v' new E Hs; cbn [subval putsub] in *; try discriminate.
  - now injection E as <- <-.
  - destruct t as [| |t|]; try discriminate. destruct v as [| |v|]; try discriminate. cbn [vshape]. eapply IH; eauto.
  - destruct t as [| | |kd hs ha fs]; try discriminate. destruct v as [| | |vs]; try discriminate.
    destruct (varlen_field fs j) as [t|] eqn:E1; [|discriminate]. destruct (nth_error vs j) as [v|] eqn:E2; [|discriminate].
    cbn [vshape]. f_equal. pose proof (IH t v t' v' new E Hs) as Hv. clear -E2 Hv. revert j E2. induction vs as [|x vs IH]; intros [|j] E2; cbn in *; try discriminate.
    + injection E2 as ->. now rewrite Hv.
    + now rewrite (IH j E2).
Qed.
Lemma at_put σ pl t v new : at_place σ pl = Some (t, v) -> vshape new = vshape v -> at_place (put_place σ pl new) pl = Some (t, new).
Proof.
  intros E Hs. assert (Hr : forall h (u : aval), nth_error σ h <> None -> nth_error (replace_nth σ h u) h = Some u).
  { intros h u Hh. rewrite nth_replace. destruct (Nat.eq_dec h h); [|congruence]. destruct (nth_error σ h); [reflexivity|congruence]. }
  destruct pl as [h p|h i p|h u o p]; cbn [at_place put_place] in *.
  - destruct (nth_error σ h) as [[t1 v1|t1 v1|t1 c vs old|]|] eqn:Eh; try discriminate; rewrite Hr by congruence; eapply subval_putsub; eauto.
  - destruct (nth_error σ h) as [[t1 v1|t1 v1|t1 c vs old|]|] eqn:Eh; try discriminate. destruct (nth_error vs i) as [v0|] eqn:Ei; [|discriminate].
    rewrite Hr by congruence. rewrite nth_replace. destruct (Nat.eq_dec i i); [|congruence]. rewrite Ei. cbn [option_map]. eapply subval_putsub; eauto.
  - destruct (nth_error σ h) as [[t1 v1|t1 v1|t1 c vs old|]|] eqn:Eh; try discriminate. destruct (u || c) eqn:Eu; [|discriminate].
    destruct (index_of o (starts t1 vs 0)) as [i|] eqn:Eo; [|discriminate]. destruct (nth_error vs i) as [v0|] eqn:Ei; [|discriminate].
    rewrite Hr by congruence. rewrite Eu. rewrite (starts_put t1 vs i v0 _ 0 Ei (shape_putsub p t1 v0 t v new E Hs)), Eo.
    rewrite nth_replace. destruct (Nat.eq_dec i i); [|congruence]. rewrite Ei. cbn [option_map]. eapply subval_putsub; eauto.
Qed.

(** C52. Whatever a program does with boxes, owned values and sequences that contain Str values at any
    depth, every Str it can refer to holds UTF-8, and reading its text gives exactly those bytes. *)
Theorem C52_always_utf8 : forall w sl σ n,
  reach_s w sl σ n -> forall pl k v, at_place σ pl = Some (TStr k, v) ->
  exists s, utf8 s /\ v = str_val s /\ exec_s (SText pl) (w, sl) = Ok (Text s) (w, sl).
Proof.
  intros w sl σ n HR pl k v Hp. destruct (reach_s_inv _ _ _ _ HR) as [HI HT]. destruct (HT pl k v Hp) as (s & H8 & ->).
  exists s. split; [exact H8|]. split; [reflexivity|]. destruct (resolve_ok w sl σ n pl _ _ HI Hp) as (a & s0 & v0 & E & Hwf & Ho & _).
  cbn [exec_s]. step E. cbn [fst snd TStr]. now rewrite (str_text_ok k w a s Ho H8).
Qed.
(** Each further step is free of undefined behaviour (in particular of UUtf8; the exception is C28 as
    in C45), and does what the account of StrSpec.v says. *)
Theorem C52_program_safe : forall w sl σ n o,
  reach_s w sl σ n -> allowed_s σ o ->
  match exec_s o (w, sl) with
  | Ok r (w', sl') => exists σ' evs n', w_log w' = w_log w ++ evs /\ astep_s σ o (SDone r) σ' (drops_of evs) /\ reach_s w' sl' σ' n'
  | Panic (w', sl') => exists σ' evs n', w_log w' = w_log w ++ evs /\ astep_s σ o SPanicked σ' (drops_of evs) /\ reach_s w' sl' σ' n'
  | UB u => u = UNull /\ exists t p i, o = SPlain (ONewBox t p) /\ den σ t p i /\
      forall a, w_alloc w (w_tick w) (isize t i) (sp_align t) = Some a ->
        valid_answer (w_blocks w) a (isize t i) (sp_align t) = false
  end.
Proof.
  intros w sl σ n o HR Hal. destruct (reach_s_inv _ _ _ _ HR) as [HI HT]. pose proof (exec_s_ok w sl σ n o HI HT Hal) as H.
  destruct (exec_s o (w, sl)) as [r [w' sl']|[w' sl']|u] eqn:E.
  - destruct H as (σ' & evs & A & L & _). eexists σ', evs, _. split; [exact L|]. split; [exact A|]. eapply RS_done; eauto.
  - destruct H as (σ' & evs & A & L & _). eexists σ', evs, _. split; [exact L|]. split; [exact A|]. eapply RS_panicked; eauto.
  - destruct H as [-> (o' & -> & t & p & i & -> & H)]. split; [reflexivity|]. exists t, p, i. auto.
Qed.
(** What is changed through mut_slice() reads back changed, and everything else the program holds
    reads back as before. *)
Theorem C52_edit : forall w sl σ n pl k s g,
  reach_s w sl σ n -> at_place σ pl = Some (TStr k, str_val s) -> text_change g ->
  exists w', exec_s (SEdit pl g) (w, sl) = Ok (Plain OutUnit) (w', sl) /\ w_log w' = w_log w /\
    reach_s w' sl (put_place σ pl (str_val (g s))) n /\
    exec_s (SText pl) (w', sl) = Ok (Text (g s)) (w', sl) /\
    (forall h t v, h <> place_handle pl -> nth_error σ h = Some (ABox t v) \/ nth_error σ h = Some (AOwn t v) ->
       exec (ORead (PlObj h PHere)) (w', sl) = Ok (OutVal v) (w', sl)) /\
    (forall h t chk vs old, h <> place_handle pl -> nth_error σ h = Some (ASeq t chk vs old) ->
       exec (OReadSeq h) (w', sl) = Ok (OutVals vs) (w', sl)).
Proof.
  intros w sl σ n pl k s g HR Hp Hg. destruct (reach_s_inv _ _ _ _ HR) as [HI HT].
  assert (Hal : allowed_s σ (SEdit pl g)) by (eapply LS_edit; eauto).
  pose proof (C52_program_safe w sl σ n (SEdit pl g) HR Hal) as H.
  destruct (HT pl k _ Hp) as (s' & H8 & Es). apply str_val_inj in Es. subst s'. destruct (Hg s H8) as [Hg8 Hgl].
  destruct (resolve_ok w sl σ n pl _ _ HI Hp) as (a & s0 & v0 & E & Hwf & Ho & Hah & Hst & Hput).
  destruct (str_edit_ok k w a s g Ho H8 Hgl) as (w' & Ew & Hb & Hlog & Hm & Ho' & Hsh).
  assert (Ex : exec_s (SEdit pl g) (w, sl) = Ok (Plain OutUnit) (w', sl)).
  { cbn [exec_s]. step E. cbn [fst snd TStr]. now rewrite Ew. }
  assert (HR' : reach_s w' sl (put_place σ pl (str_val (g s))) n).
  { apply (RS_done w sl σ n (SEdit pl g) _ w' sl _ [] HR Hal Ex). eapply AS_edit; eauto. }
  exists w'. split; [exact Ex|]. split; [exact Hlog|]. split; [exact HR'|]. destruct (reach_s_inv _ _ _ _ HR') as [HI' HT'].
  destruct (Hput w' _ Hb Hm Ho' Hsh) as (v1 & Ep & Hr1 & Hb1).
  assert (Hother : forall h, h <> place_handle pl -> nth_error (put_place σ pl (str_val (g s))) h = nth_error σ h).
  { intros h Hh. rewrite Ep, nth_replace. destruct (Nat.eq_dec (place_handle pl) h); [congruence|reflexivity]. }
  split; [|split].
  - assert (Hp' : at_place (put_place σ pl (str_val (g s))) pl = Some (TStr k, str_val (g s))) by (eapply at_put; eauto).
    destruct (C52_always_utf8 w' sl _ n HR' pl k _ Hp') as (s2 & _ & E2 & E3). apply str_val_inj in E2. now subst s2.
  - intros h t v Hh Hv. rewrite <- (Hother h Hh) in Hv.
    assert (Hp' : at_place (put_place σ pl (str_val (g s))) (PlObj h PHere) = Some (t, v)) by (cbn [at_place]; destruct Hv as [-> | ->]; reflexivity).
    destruct (resolve_ok w' sl _ n _ _ _ HI' Hp') as (a' & s1 & v2 & E' & Hwf' & Ho2 & _).
    cbn [exec]. unfold call. step E'. cbn [fst snd]. now rewrite (view_ok t w' a' v Hwf' Ho2).
  - intros h t chk vs old Hh Hv. rewrite <- (Hother h Hh) in Hv.
    destruct (seq_slot w' sl _ n h t chk vs old HI' Hv) as (s1 & Hah1 & Hwf1 & Hz & Hat & Hbits).
    cbn [exec]. rewrite (proj1 Hah1). unfold call. now rewrite (seq_contents_ok w' t chk s1 vs Hwf1 (proj1 HI') Hat).
Qed.

(** ** a concrete program: a box with a Str field; the text "abc" is read and upper-cased *)
Definition out_of_s (r : res config sout) : option sout := match r with Ok o _ => Some o | _ => None end.
Definition cfg_of_s (r : res config sout) : config := match r with Ok _ c | Panic c => c | UB _ => (w_start, []) end.
Definition step_cfg_s (o : sop) (c : config) : config := cfg_of_s (exec_s o c).
Lemma reach_step_s c σ n o r σ' d : reach_s (fst c) (snd c) σ n -> allowed_s σ o -> out_of_s (exec_s o c) = Some r ->
  astep_s σ o (SDone r) σ' d ->
  reach_s (fst (step_cfg_s o c)) (snd (step_cfg_s o c)) σ' (match o with SPlain (OForget _) => S n | _ => n end).
Proof.
  destruct c as [w sl]. intros HR Hal Ho Hs. unfold step_cfg_s. cbn [fst snd] in HR.
  destruct (exec_s o (w, sl)) as [x [w' sl']|[w' sl']|] eqn:E; try discriminate.
  injection Ho as ->. cbn [cfg_of_s fst snd]. eapply RS_done; eauto.
Qed.
Definition upper (s : list N) : list N := map (fun b => if within 97 122 b then b - 32 else b) s.
Lemma upper_text : text_change upper.
Proof.
  intros s H. split; [|apply map_length].
  assert (Hi : forall b, 128 <= b -> (if within 97 122 b then b - 32 else b) = b) by (intros b Hb; rewrite within_not by lia; reflexivity).
  induction H; unfold upper in *; cbn [map] in *; unfold cont in *;
    repeat match goal with |- context [if within 97 122 ?x then _ else _] => rewrite (Hi x) by lia end;
    [apply U_nil| |apply U_2|apply U_3a|apply U_3b|apply U_3c|apply U_4a|apply U_4b|apply U_4c]; unfold cont; try lia; auto.
  apply U_1; [|assumption]. destruct (within 97 122 a); lia.
Qed.
Definition pl_str : place := PlObj 0 (PFld 2 PHere).
Definition s1 := step_cfg_s (SPlain op1) (w_start, []).
Definition s2 := step_cfg_s (SEdit pl_str upper) s1.
Definition v_up : vval :=
  VRec [VFix (by_ [2]); VFix h1; VNew (VArr [by_ [65]; by_ [66]; by_ [67]]);
        VArr [by_ [0;0]; by_ [1;0]]; VRec [VArr [h2; h3]; VFix (by_ [1;2;3;4])]].
Example C52_meets : reach_s (fst s2) (snd s2) [ABox t_ex v_up] 0 /\
  out_of_s (exec_s (SText pl_str) s1) = Some (Text [97; 98; 99]) /\
  out_of_s (exec_s (SText pl_str) s2) = Some (Text [65; 66; 67]).
Proof.
  split; [|vm_compute; auto].
  assert (R1 : reach_s (fst s1) (snd s1) σ1 0).
  { apply (reach_step_s (w_start, []) [] 0 (SPlain op1) (Plain OutUnit) σ1 []); [now constructor| |vm_compute; reflexivity|].
    - apply LS_plain.
      + apply L_new_box with i_ex; [apply t_ex_wf|apply p_ex_den| |vm_compute; reflexivity]. apply no_moves; [reflexivity|intros h []].
      + cbn. repeat split. intros k _. exists [97; 98; 99]. split; [|left; reflexivity]. apply valid_is_utf8. reflexivity.
    - apply AS_done. apply (A_new_box [] t_ex p_ex i_ex v_ex); [apply p_ex_den|vm_compute; reflexivity|vm_compute; reflexivity]. }
  apply (reach_step_s s1 σ1 0 (SEdit pl_str upper) (Plain OutUnit) [ABox t_ex v_up] []); [exact R1| |vm_compute; reflexivity|].
  - eapply LS_edit; [vm_compute; reflexivity|apply upper_text].
  - apply (AS_edit σ1 pl_str LU8 [97; 98; 99] upper). reflexivity.
Qed.
(** The restriction is needed: a program that could write a byte into the private inner array would
    make reading the text undefined. *)
Example C52_private_needed :
  let c := step_cfg (OAssign pl_str (PInner (PIdx 0)) (by_ [255])) c1 in
  exec_s (SText pl_str) c = UB UUtf8.
Proof. vm_compute. reflexivity. Qed.
