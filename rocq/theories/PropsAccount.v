(** PropsAccount.v - C50: in whole programs every value with a destructor is destroyed exactly once. *)
From Verif Require Import ProgSteps Ownership AccountSpec PropsProgram Examples.

(** ** what an initializer owns *)
Lemma gen_run_somes {A} (h : A -> list event * option (list cell)) l xs :
  snd (gen_run (map h l)) = Some xs -> xs = somes (map (fun x => snd (h x)) l).
Proof.
  revert xs. induction l as [|x l IH]; intros xs H; cbn [map gen_run] in *; [injection H as <-; reflexivity|].
  unfold somes in *. cbn [map concat]. destruct (h x) as [e [v|]]; cbn [snd] in *; [|discriminate].
  destruct (snd (gen_run (map h l))) as [ys|]; [|discriminate]. injection H as <-. cbn [app]. f_equal. now apply IH.
Qed.
Lemma arun_made f n ai xs : aok f ai -> snd (arun f n ai) = Some xs ->
  (if f_drop f then xs else []) = aowned f ai ++ amade f n ai.
Proof.
  intros Ha H. destruct ai as [g|g|g|vs|vs|a k vs|a k vs|vs|ws fin]; cbn [arun aok aowned] in *; unfold amade.
  - rewrite (gen_run_somes _ _ _ H). cbn [snd]. destruct (f_drop f); reflexivity.
  - rewrite (gen_run_somes _ _ _ H). cbn [snd]. destruct (f_drop f); reflexivity.
  - rewrite (gen_run_somes _ _ _ H). cbn [snd]. destruct (f_drop f); reflexivity.
  - destruct Ha as [_ ->]. reflexivity.
  - destruct (len vs =? n); [|discriminate]. rewrite (gen_run_somes _ _ _ H). cbn [snd]. destruct (f_drop f); reflexivity.
  - destruct Ha as (_ & _ & _ & ->). reflexivity.
  - destruct (len vs =? n); [|discriminate]. rewrite (gen_run_somes _ _ _ H). cbn [snd]. destruct (f_drop f); reflexivity.
  - destruct (len vs =? n); [|discriminate]. injection H as ->. destruct (f_drop f); [now rewrite app_nil_r|reflexivity].
  - cbn [snd] in H. destruct (forallb _ _); cbn [andb] in H; [|discriminate]. destruct (fin n) eqn:Efin; [|discriminate]. injection H as <-.
    destruct (f_drop f); [|reflexivity]. cbn [app]. destruct Ha as [_ Hall]. specialize (Hall n). unfold somes. rewrite map_map.
    assert (Hin : forall i, In i (upto n) -> i < n) by (intros i Hi; now apply in_upto).
    induction (upto n) as [|i l IH]; [reflexivity|]. cbn [map concat]. destruct (Hall i Efin (Hin i (or_introl eq_refl))) as (v & Hv).
    destruct (last_write_some _ _ _ Hv) as (u & ->). cbn [app]. f_equal. apply IH. intros j Hj. apply Hin. right. exact Hj.
Qed.
Lemma ival_made :
  (forall t i v, iwt t i -> ival t i = Some v -> Permutation (vdrops t v) (iowned t i ++ imade t i)) /\
  (forall fs is_ cs vs, iwt_flds fs is_ -> ivals fs is_ cs = Some vs ->
     Permutation (vdrops_flds fs vs) (iowned_flds fs is_ ++ imade_flds fs is_ cs)).
Proof.
  assert (Hsrc : forall t i a v0 v, iwt t i -> i = ICopy a v0 \/ i = IBox a v0 \/ i = IOwned a v0 -> ival t i = Some v ->
     Permutation (vdrops t v) (iowned t i ++ imade t i)).
  { intros t i a v0 v Hi E H.
    assert (Em : imade t i = []) by (destruct E as [-> | [-> | ->]]; destruct t; reflexivity). rewrite Em, app_nil_r.
    destruct E as [-> | [-> | ->]].
    - replace (ival t (ICopy a v0)) with (Some v0) in H by (destruct t; reflexivity). injection H as <-.
      replace (iowned t (ICopy a v0)) with (@nil (list cell)) by (destruct t; reflexivity).
      assert (plain t) by (destruct t; apply Hi). now rewrite (proj1 plain_vdrops_all t).
    - replace (ival t (IBox a v0)) with (Some v0) in H by (destruct t; reflexivity). injection H as <-.
      replace (iowned t (IBox a v0)) with (vdrops t v0) by (destruct t; reflexivity). reflexivity.
    - replace (ival t (IOwned a v0)) with (Some v0) in H by (destruct t; reflexivity). injection H as <-.
      replace (iowned t (IOwned a v0)) with (vdrops t v0) by (destruct t; reflexivity). reflexivity. }
  apply vty_flds_ind.
  - intros f i v Hi H. destruct i; try (eapply Hsrc; eauto; fail); cbn [iwt] in Hi; try contradiction; cbn [ival iowned imade] in *.
    + injection H as <-. cbn [vdrops]. now rewrite app_nil_r.
    + destruct (f_clone f v0); [|discriminate]. injection H as <-. cbn [vdrops]. destruct (f_drop f); reflexivity.
    + destruct (f_clone f ghost); [|discriminate]. injection H as <-. cbn [vdrops]. destruct (f_drop f); reflexivity.
  - intros f k i v Hi H. destruct i; try (eapply Hsrc; eauto; fail); cbn [iwt] in Hi; try contradiction; cbn [ival iowned imade] in *.
    destruct (snd (arun f n ai)) as [xs|] eqn:E; [|discriminate]. injection H as <-. cbn [vdrops].
    now rewrite (arun_made f n ai xs (proj1 Hi) E).
  - intros t IH i v Hi H. destruct i; try (eapply Hsrc; eauto; fail); cbn [iwt] in Hi; try contradiction; cbn [ival iowned imade] in *.
    destruct (ival t i) as [u|] eqn:E; [|discriminate]. injection H as <-. cbn [vdrops]. now apply IH.
  - intros kd hs ha fs IH i v Hi H. destruct i; try (eapply Hsrc; eauto; fail); cbn [iwt] in Hi; try contradiction; cbn [ival iowned imade] in *.
    destruct (ivals fs is_ (ictrls fs is_)) as [vs|] eqn:E; [|discriminate]. injection H as <-. cbn [vdrops]. now apply IH.
  - intros is_ cs vs Hi H. destruct is_; try contradiction. injection H as <-. reflexivity.
  - intros off f r IH is_ cs vs Hi H. destruct is_ as [|[] is_]; try contradiction.
    cbn [ivals iowned_flds imade_flds] in *. destruct (ivals r is_ cs) as [us|] eqn:E; [|discriminate]. injection H as <-.
    cbn [vdrops_flds]. specialize (IH _ _ _ (proj2 Hi) E). rewrite <- app_assoc. now apply Permutation_app_head.
  - intros off f r IH is_ cs vs Hi H. destruct is_ as [|[] is_]; try contradiction.
    cbn [ivals iowned_flds imade_flds] in *. destruct (ivals r is_ cs) as [us|] eqn:E; [|discriminate]. injection H as <-.
    cbn [vdrops_flds]. specialize (IH _ _ _ (proj2 Hi) E). rewrite <- app_assoc. now apply Permutation_app_head.
  - intros t IHt r IH is_ cs vs Hi H. destruct is_ as [|i is_]; try contradiction.
    cbn [ivals iowned_flds imade_flds] in *. destruct (ival t i) as [u|] eqn:Eu; [|discriminate].
    destruct (ivals r is_ cs) as [us|] eqn:E; [|discriminate]. injection H as <-.
    cbn [vdrops_flds]. specialize (IH _ _ _ (proj2 Hi) E). specialize (IHt _ _ (proj1 Hi) Eu). perm.
  - intros f lf r IH is_ cs vs Hi H. destruct is_ as [|[] is_]; try contradiction.
    cbn [ivals iowned_flds imade_flds] in *. destruct (snd (arun f (lf cs) ai)) as [xs|] eqn:Eu; [|discriminate].
    destruct (ivals r is_ cs) as [us|] eqn:E; [|discriminate]. injection H as <-.
    cbn [vdrops_flds]. specialize (IH _ _ _ (proj2 Hi) E). rewrite (arun_made _ _ _ _ (proj1 Hi) Eu). perm.
Qed.

Definition held_at (σ : list aval) (h : nat) : list (list cell) :=
  match nth_error σ h with Some v => owned_drops v | None => [] end.
Definition moved (σ : list aval) (hs : list nat) : list (list cell) := concat (map (held_at σ) hs).
Lemma moved_app σ a b : moved σ (a ++ b) = moved σ a ++ moved σ b.
Proof. unfold moved. now rewrite map_app, concat_app. Qed.
Lemma clone_owned :
  (forall t v, clonable t -> vok t v -> iowned t (clone_init t v) = [] /\ igiven t (clone_init t v) = []) /\
  (forall fs vs cs, clonable_flds fs -> vok_flds fs vs cs -> iowned_flds fs (clone_inits fs vs) = [] /\ igiven_flds fs (clone_inits fs vs) = []).
Proof.
  apply vty_flds_ind.
  - intros f v Hc Hv. destruct v; try contradiction. auto.
  - intros f k v Hc Hv. destruct v; try contradiction. auto.
  - intros t IH v Hc Hv. destruct v; try contradiction. cbn. now apply IH.
  - intros kd hs ha fs IH v Hc Hv. destruct v; try contradiction. cbn [clone_init iowned igiven]. eapply IH; [apply Hc|apply Hv].
  - intros vs cs Hc Hv. destruct vs; try contradiction. auto.
  - intros off f r IH vs cs Hc Hv. contradiction.
  - intros off f r IH vs cs Hc Hv. contradiction.
  - intros t IHt r IH vs cs Hc Hv. destruct vs as [|v vs]; try contradiction. cbn [clone_inits iowned_flds igiven_flds].
    destruct (IHt v (proj1 Hc) (proj1 Hv)) as [-> ->]. destruct (IH vs cs (proj2 Hc) (proj2 Hv)) as [-> ->]. auto.
  - intros f lf r IH vs cs Hc Hv. contradiction.
Qed.
Lemma iwt_noaddr :
  (forall t i, iwt t i -> iwt t (noaddr i)) /\ (forall fs is_, iwt_flds fs is_ -> iwt_flds fs (map noaddr is_)).
Proof.
  assert (GA : forall f ai, aok f ai -> aok f (anoaddr ai)) by (intros f ai H; destruct ai; cbn [anoaddr aok] in *; tauto).
  apply vty_flds_ind.
  - intros f i H. destruct i; exact H.
  - intros f k i H. destruct i; try exact H. split; [apply GA, H|apply H].
  - intros t IH i H. destruct i; try exact H. now apply IH.
  - intros kd hs ha fs IH i H. destruct i; try exact H. now apply IH.
  - intros is_ H. destruct is_; [exact I|contradiction].
  - intros off f r IH is_ H. destruct is_ as [|[] is_]; try contradiction. split; [apply H|apply IH, H].
  - intros off f r IH is_ H. destruct is_ as [|[] is_]; try contradiction. split; [apply H|apply IH, H].
  - intros t IHt r IH is_ H. destruct is_ as [|i is_]; try contradiction. split; [apply IHt, H|apply IH, H].
  - intros f lf r IH is_ H. destruct is_ as [|[] is_]; try contradiction. split; [apply GA, H|apply IH, H].
Qed.
Lemma den_iwt w sl σ n t p i : Inv w sl σ n -> wf_ty t -> den σ t p i -> iwt t i.
Proof.
  intros HI Hwf Hd. destruct (proj1 (eval_all w sl σ n HI) t p i Hd Hwf) as (j & _ & <- & Hi & _). now apply iwt_noaddr.
Qed.
Lemma den_owned w sl σ n : Inv w sl σ n ->
  (forall t p i, den σ t p i -> Permutation (iowned t i) (igiven t i ++ moved σ (moves p))) /\
  (forall fs ps is_, dens σ fs ps is_ -> Permutation (iowned_flds fs is_) (igiven_flds fs is_ ++ moved σ (concat (map moves ps)))).
Proof.
  intros HI. apply den_mut.
  - intros f v _. cbn. now rewrite !app_nil_r.
  - intros f v _. reflexivity.
  - intros f k m ai _ _ _. destruct ai; cbn; try reflexivity. now rewrite app_nil_r.
  - intros f k m cl pl j lo l ai Hs _. inversion Hs; subst; reflexivity.
  - intros t p i _ IH. exact IH.
  - intros kd hs ha fs ps is_ _ IH. exact IH.
  - intros t h v Hv. replace (iowned t (IBox 0 v)) with (vdrops t v) by (destruct t; reflexivity).
    replace (igiven t (IBox 0 v)) with (@nil (list cell)) by (destruct t; reflexivity).
    cbn [moves app]. unfold moved, held_at. cbn [map concat]. rewrite Hv, app_nil_r. reflexivity.
  - intros t pl v _ _. replace (iowned t (ICopy 0 v)) with (@nil (list cell)) by (destruct t; reflexivity).
    replace (igiven t (ICopy 0 v)) with (@nil (list cell)) by (destruct t; reflexivity). reflexivity.
  - intros t pl v Hp Hc. destruct (resolve_ok w sl σ n pl t v HI Hp) as (a & s0 & v0 & _ & _ & Ho & _).
    destruct (proj1 clone_owned t v Hc (proj1 Ho)) as [-> ->]. reflexivity.
  - reflexivity.
  - intros off f r v ps is_ _ _ IH. cbn [iowned_flds igiven_flds map concat moves app]. rewrite <- app_assoc. now apply Permutation_app_head.
  - intros off f r v ps is_ _ _ IH. cbn [iowned_flds igiven_flds map concat moves app]. rewrite <- app_assoc. now apply Permutation_app_head.
  - intros t r p i ps is_ _ IHt _ IH. cbn [iowned_flds igiven_flds map concat]. rewrite moved_app. perm.
  - intros f lf r ai ps is_ _ _ _ IH. cbn [iowned_flds map concat moves app]. destruct ai; cbn [aowned igiven_flds app]; try exact IH.
    rewrite <- app_assoc. now apply Permutation_app_head.
  - intros f lf r cl pl j lo l ai ps is_ Hs _ IH. inversion Hs; subst; cbn [iowned_flds map concat moves app aowned igiven_flds]; exact IH.
Qed.

(** ** what a state holds *)
Lemma held_app σ σ' : held (σ ++ σ') = held σ ++ held σ'.
Proof. unfold held. now rewrite map_app, concat_app. Qed.
Lemma concat_replace {A B} (g : A -> list B) l k x y : nth_error l k = Some x ->
  exists u v, concat (map g l) = u ++ g x ++ v /\ concat (map g (replace_nth l k y)) = u ++ g y ++ v.
Proof.
  revert k. induction l as [|z l IH]; intros [|k] H; cbn [nth_error map concat replace_nth] in *; try discriminate.
  - injection H as ->. exists [], (concat (map g l)). auto.
  - destruct (IH k H) as (u & v & E1 & E2). exists (g z ++ u), v. rewrite E1, E2, <- !app_assoc. auto.
Qed.
Lemma held_replace σ h v v' : nth_error σ h = Some v ->
  Permutation (held (replace_nth σ h v') ++ owned_drops v) (held σ ++ owned_drops v').
Proof. intros H. unfold held. destruct (concat_replace owned_drops σ h v v' H) as (a & b & -> & ->). perm. Qed.
Lemma held_kill hs : forall σ, NoDup hs -> Permutation (held σ) (held (kill_vals σ hs) ++ moved σ hs).
Proof.
  induction hs as [|h hs IH]; intros σ Hnd; [unfold moved; cbn; now rewrite app_nil_r|].
  inversion Hnd as [|? ? Hni Hnd']; subst. unfold kill_vals. cbn [fold_left]. fold (kill_vals (replace_nth σ h ADead) hs).
  specialize (IH (replace_nth σ h ADead) Hnd').
  assert (Em : moved (replace_nth σ h ADead) hs = moved σ hs).
  { unfold moved. f_equal. apply map_ext_in. intros k Hk. unfold held_at. rewrite <- update_replace, nth_update.
    destruct (Nat.eq_dec h k) as [->|]; [contradiction|reflexivity]. }
  rewrite Em in IH. change (moved σ (h :: hs)) with (held_at σ h ++ moved σ hs). unfold held_at.
  destruct (nth_error σ h) as [v|] eqn:Eh.
  - pose proof (held_replace σ h v ADead Eh) as H. cbn [owned_drops] in H. rewrite app_nil_r in H. perm.
  - assert (Er : replace_nth σ h ADead = σ).
    { clear -Eh. revert h Eh. induction σ as [|x σ IH]; intros [|h] E; cbn in *; try discriminate; auto. now rewrite IH. }
    rewrite Er in *. exact IH.
Qed.

(** ** replacing parts *)
Lemma vdrops_fld fs : forall vs cs j t u u', vok_flds fs vs cs -> varlen_field fs j = Some t -> nth_error vs j = Some u ->
  Permutation (vdrops_flds fs (replace_nth vs j u') ++ vdrops t u) (vdrops_flds fs vs ++ vdrops t u').
Proof.
  induction fs as [|off f r IH|off f r IH|t r IH|f lf r IH]; intros vs cs j t' u u' Hv Hj Hu;
    cbn [varlen_field] in Hj; [discriminate| | | |]; (destruct vs as [|v vs]; [destruct j; discriminate|]);
    (destruct j as [|j]; cbn [varlen_field nth_error replace_nth] in *).
  - discriminate.
  - destruct v; try contradiction. specialize (IH _ _ _ _ _ u' (proj2 Hv) Hj Hu). cbn [vdrops_flds]. perm.
  - discriminate.
  - destruct v; try contradiction. specialize (IH _ _ _ _ _ u' (proj2 Hv) Hj Hu). cbn [vdrops_flds]. perm.
  - injection Hj as ->. injection Hu as ->. cbn [vdrops_flds]. perm.
  - specialize (IH _ _ _ _ _ u' (proj2 Hv) Hj Hu). cbn [vdrops_flds]. perm.
  - discriminate.
  - destruct v; try contradiction. specialize (IH _ _ _ _ _ u' (proj2 (proj2 Hv)) Hj Hu). cbn [vdrops_flds]. perm.
Qed.
Lemma vok_sub fs : forall vs cs j t u, vok_flds fs vs cs -> varlen_field fs j = Some t -> nth_error vs j = Some u -> vok t u.
Proof.
  induction fs as [|off f r IH|off f r IH|t r IH|f lf r IH]; intros vs cs j t' u Hv Hj Hu;
    cbn [varlen_field] in Hj; [discriminate| | | |]; (destruct vs as [|v vs]; [destruct j; discriminate|]);
    (destruct j as [|j]; cbn [varlen_field nth_error] in *; try discriminate); try (destruct v; try contradiction; eapply IH; [|eassumption|eassumption]; apply Hv).
  - injection Hj as ->. injection Hu as ->. apply Hv.
  - eapply IH; [|eassumption|eassumption]. apply Hv.
Qed.
Lemma vdrops_putsub p : forall t v t' v' new, vok t v -> subval t v p = Some (t', v') ->
  Permutation (vdrops t (putsub v p new) ++ vdrops t' v') (vdrops t v ++ vdrops t' new).
Proof.
  induction p as [| |p IH|j p IH]; intros t v t' v' new Hv H; cbn [subval putsub] in *; try discriminate.
  - injection H as -> ->. perm.
  - destruct t; try discriminate. destruct v; try discriminate. cbn [vdrops]. now apply IH.
  - destruct t as [| | |kd hs ha fs]; try discriminate. destruct v as [| | |us]; try discriminate.
    destruct (varlen_field fs j) as [t0|] eqn:Ef; try discriminate. destruct (nth_error us j) as [u|] eqn:Eu; try discriminate.
    cbn [vok] in Hv. pose proof (IH t0 u t' v' new (vok_sub _ _ _ _ _ _ Hv Ef Eu) H) as H1.
    pose proof (vdrops_fld fs us _ j t0 u (putsub u p new) Hv Ef Eu) as H2. cbn [vdrops]. perm.
Qed.
Lemma vdrops_put p :
  (forall t v f b new, vok t v -> mut_leaf t p = Some f -> leaf v p = Some b ->
   Permutation (vdrops t (put v p new) ++ (if f_drop f then [b] else [])) (vdrops t v ++ (if f_drop f then [new] else []))).
Proof.
  induction p as [|i|p IH|j p IH]; intros t v f b new Hv Hm Hl.
  - destruct t as [f0|f0 k|t|kd hs ha fs]; cbn [mut_leaf] in Hm; try discriminate. injection Hm as ->.
    destruct v; try contradiction. cbn [leaf put vdrops] in *. injection Hl as ->. destruct (f_drop f); perm.
  - destruct t as [f0|f0 k|t|kd hs ha fs]; cbn [mut_leaf] in Hm; try discriminate. injection Hm as ->.
    destruct v as [|xs| |]; try contradiction. cbn [leaf put vdrops] in *. destruct (f_drop f); [|reflexivity].
    destruct (concat_replace (fun x : list cell => [x]) xs (N.to_nat i) b new Hl) as (u & w & E1 & E2).
    assert (Ec : forall l : list (list cell), concat (map (fun x => [x]) l) = l) by (intros l; induction l; cbn; congruence).
    rewrite Ec in E1, E2. rewrite E2, E1. perm.
  - destruct t as [f0|f0 k|t|kd hs ha fs]; cbn [mut_leaf] in Hm; try discriminate.
    destruct v as [| |v|]; try contradiction. cbn [leaf put vdrops] in *. now apply IH.
  - destruct t as [f0|f0 k|t|kd hs ha fs]; cbn [mut_leaf] in Hm; try discriminate.
    destruct v as [| | |us]; try contradiction. cbn [leaf put vdrops vok] in *.
    destruct (nth_error us j) as [u|] eqn:Eu; [|discriminate]. cbn [vdrops]. clear hs ha kd.
    revert Hv. generalize (vctrls fs us). revert j us Eu Hm.
    induction fs as [|off g r IHf|off g r IHf|t r IHf|g lf r IHf]; intros j us Eu Hm cs Hv;
      cbn [mut_leaf_fld] in Hm; [discriminate| | | |]; (destruct us as [|x us]; [destruct j; discriminate|]);
      (destruct j as [|j]; cbn [nth_error replace_nth] in * ).
    + destruct p; try discriminate. injection Hm as ->. injection Eu as ->. destruct u; try contradiction. cbn [leaf] in Hl. injection Hl as ->. cbn [put vdrops_flds]. destruct (f_drop f); perm.
    + destruct x; try contradiction. specialize (IHf _ _ Eu Hm _ (proj2 Hv)). cbn [vdrops_flds]. perm.
    + discriminate.
    + destruct x; try contradiction. specialize (IHf _ _ Eu Hm _ (proj2 Hv)). cbn [vdrops_flds]. perm.
    + injection Eu as ->. pose proof (IH t u f b new (proj1 Hv) Hm Hl). cbn [vdrops_flds]. perm.
    + specialize (IHf _ _ Eu Hm _ (proj2 Hv)). cbn [vdrops_flds]. perm.
    + destruct p as [|i| |]; try discriminate. injection Hm as ->. injection Eu as ->. destruct u as [|xs| |]; try contradiction. cbn [leaf put] in *. cbn [vdrops_flds].
      destruct (f_drop f); [|reflexivity].
      destruct (concat_replace (fun x : list cell => [x]) xs (N.to_nat i) b new Hl) as (a & w & E1 & E2).
      assert (Ec : forall l : list (list cell), concat (map (fun x => [x]) l) = l) by (intros l; induction l; cbn; congruence).
      rewrite Ec in E1, E2. rewrite E2, E1. perm.
    + destruct x; try contradiction. specialize (IHf _ _ Eu Hm _ (proj2 (proj2 Hv))). cbn [vdrops_flds]. perm.
Qed.
Lemma put_vok p :
  (forall t v f b new, vok t v -> mut_leaf t p = Some f -> leaf v p = Some b -> len new = f_size f -> vok t (put v p new)).
Proof.
  assert (Hel : forall f i xs new, elems_ok f xs -> len new = f_size f -> elems_ok f (replace_nth xs i new)).
  { intros f i xs new H Hn. revert i. induction H as [|x xs Hx H IH]; intros [|i]; cbn [replace_nth]; constructor; auto. apply IH. }
  assert (Hlen : forall i (xs : list (list cell)) new, len (replace_nth xs i new) = len xs).
  { intros i xs new. unfold len. change (@replace_nth (list cell)) with (@update (list cell)). now rewrite update_length. }
  induction p as [|i|p IH|j p IH]; intros t v f b new Hv Hm Hl Hn.
  - destruct t as [f0|f0 k|t|kd hs ha fs]; cbn [mut_leaf] in Hm; try discriminate. injection Hm as ->.
    destruct v; try contradiction. exact Hn.
  - destruct t as [f0|f0 k|t|kd hs ha fs]; cbn [mut_leaf] in Hm; try discriminate. injection Hm as ->.
    destruct v as [|xs| |]; try contradiction. cbn [put vok] in *. rewrite Hlen. split; [now apply Hel|apply Hv].
  - destruct t as [f0|f0 k|t|kd hs ha fs]; cbn [mut_leaf] in Hm; try discriminate.
    destruct v as [| |v|]; try contradiction. cbn [leaf put vok] in *. eapply IH; eauto.
  - destruct t as [f0|f0 k|t|kd hs ha fs]; cbn [mut_leaf] in Hm; try discriminate.
    destruct v as [| | |us]; try contradiction. cbn [leaf put vok] in *.
    destruct (nth_error us j) as [u|] eqn:Eu; [|discriminate]. cbn [vok]. clear hs ha kd.
    assert (Hc : vctrls fs (replace_nth us j (put u p new)) = vctrls fs us).
    { clear Hv. revert j us Eu Hm.
      induction fs as [|off g r IHf|off g r IHf|t r IHf|g lf r IHf]; intros j us Eu Hm;
        cbn [mut_leaf_fld] in Hm; [discriminate| | | |]; (destruct us as [|x us]; [destruct j; discriminate|]);
        (destruct j as [|j]; cbn [nth_error replace_nth vctrls] in * ); auto; try discriminate;
        try (destruct p; try discriminate; injection Eu as ->; destruct u; try discriminate; cbn [put vctrls]; reflexivity);
        try (rewrite (IHf _ _ Eu Hm); reflexivity). }
    rewrite Hc. revert Hv. generalize (vctrls fs us). clear Hc. revert j us Eu Hm.
    induction fs as [|off g r IHf|off g r IHf|t r IHf|g lf r IHf]; intros j us Eu Hm cs Hv;
      cbn [mut_leaf_fld] in Hm; [discriminate| | | |]; (destruct us as [|x us]; [destruct j; discriminate|]);
      (destruct j as [|j]; cbn [nth_error replace_nth] in * ); try discriminate.
    + destruct p; try discriminate. injection Hm as ->. injection Eu as ->. destruct u; try contradiction. cbn [put vok_flds] in *. split; [exact Hn|apply Hv].
    + destruct x; try contradiction. split; [apply Hv|]. apply (IHf _ _ Eu Hm _ (proj2 Hv)).
    + destruct x; try contradiction. split; [apply Hv|]. apply (IHf _ _ Eu Hm _ (proj2 Hv)).
    + injection Eu as ->. split; [|apply Hv]. eapply IH; eauto. apply Hv.
    + split; [apply Hv|]. apply (IHf _ _ Eu Hm _ (proj2 Hv)).
    + destruct p as [|i| |]; try discriminate. injection Hm as ->. injection Eu as ->. destruct u as [|xs| |]; try contradiction. cbn [put vok_flds] in *.
      rewrite Hlen. split; [now apply Hel|apply Hv].
    + destruct x; try contradiction. split; [apply Hv|]. split; [apply Hv|]. apply (IHf _ _ Eu Hm _ (proj2 (proj2 Hv))).
Qed.
(** Elements taken from a take_elems iterator. *)
Definition rest_drops (t : vty) (rest : list vval) : list (list cell) := concat (map (vdrops t) rest).
Definition hd_vok (t : vty) (o : option vval) : Prop := match o with Some v => vok t v | None => True end.
Lemma hd_replace t hd j v (ov : option vval) : nth_error hd j = Some (Some v) ->
  Permutation (hd_drops t (replace_nth hd j ov) ++ vdrops t v) (hd_drops t hd ++ match ov with Some v' => vdrops t v' | None => [] end).
Proof.
  intros Hj. unfold hd_drops.
  destruct (concat_replace (fun o : option vval => match o with Some v => vdrops t v | None => [] end) hd j (Some v) ov Hj) as (a & b & E1 & E2).
  rewrite E1, E2. perm.
Qed.
Lemma Forall_replace {A} (P : A -> Prop) l j x : Forall P l -> P x -> Forall P (replace_nth l j x).
Proof. intros H Hx. revert j. induction H as [|y l Hy H IH]; intros [|j]; cbn [replace_nth]; constructor; auto. Qed.
Lemma take_balance t : forall cmds rest hd, Forall (vok t) rest -> Forall (hd_vok t) hd ->
  match take_eval t cmds rest hd with
  | TDone _ rest' hd' d | TPanic rest' hd' d =>
      exists lost, Permutation (rest_drops t rest ++ hd_drops t hd ++ take_ins t cmds rest hd)
                               (rest_drops t rest' ++ hd_drops t hd' ++ d ++ lost) /\
        (existsb forgets cmds = false -> lost = [])
  | TBad => True
  end.
Proof.
  assert (Hthen : forall o d e cmds0 cmds A B E, 
    Permutation B (A ++ d ++ E) -> (existsb forgets cmds0 = false -> E = [] /\ existsb forgets cmds = false) ->
    match e with
    | TDone _ rest' hd' d' | TPanic rest' hd' d' =>
        exists lost, Permutation A (rest_drops t rest' ++ hd_drops t hd' ++ d' ++ lost) /\ (existsb forgets cmds = false -> lost = [])
    | TBad => True
    end ->
    match then_t o d e with
    | TDone _ rest' hd' d' | TPanic rest' hd' d' =>
        exists lost, Permutation B (rest_drops t rest' ++ hd_drops t hd' ++ d' ++ lost) /\ (existsb forgets cmds0 = false -> lost = [])
    | TBad => True
    end).
  { intros o d e cmds0 cmds A B E HB HE H. destruct e as [outs rest' hd' d'|rest' hd' d'|]; cbn [then_t]; auto;
      destruct H as (lost & HP & HL); exists (lost ++ E); (split; [perm|]); intros Hf; destruct (HE Hf) as [-> Hf']; now rewrite (HL Hf'). }
  induction cmds as [|c cmds IH]; intros rest hd HR HH.
  - cbn [take_eval take_ins]. exists []. split; [perm|auto].
  - destruct c as [| |j|j q new|j|j]; cbn [take_eval take_ins].
    + destruct rest as [|v rest].
      * refine (Hthen _ [] _ _ cmds _ _ [] _ _ (IH [] hd HR HH)). 2: cbn [existsb forgets orb]; auto. clear; perm.
      * inversion HR; subst. refine (Hthen _ [] _ _ cmds _ _ [] _ _ (IH rest (hd ++ [Some v]) _ _)); auto. 2: cbn [existsb forgets orb]; auto.
        -- unfold rest_drops, hd_drops. cbn [map concat]. rewrite map_app, concat_app. cbn [map concat]. clear; perm.
        -- apply Forall_app. auto.
    + refine (Hthen _ [] _ _ cmds _ _ [] _ _ (IH rest hd HR HH)). 2: cbn [existsb forgets orb]; auto. clear; perm.
    + destruct (nth_error hd j) as [[v|]|]; auto. refine (Hthen _ [] _ _ cmds _ _ [] _ _ (IH rest hd HR HH)). 2: cbn [existsb forgets orb]; auto. clear; perm.
    + destruct (nth_error hd j) as [[v|]|] eqn:Ej; auto. destruct (mut_leaf t q) as [f|] eqn:Em; auto.
      destruct (len new =? f_size f) eqn:En; auto. apply N.eqb_eq in En.
      assert (Hv : vok t v) by (apply nth_error_In in Ej; rewrite Forall_forall in HH; apply (HH _ Ej)).
      destruct (leaf v q) as [b|] eqn:El.
      * refine (Hthen _ _ _ _ cmds _ _ [] _ _ (IH rest (replace_nth hd j (Some (put v q new))) HR _)). 2: cbn [existsb forgets orb]; auto.
        -- pose proof (hd_replace t hd j v (Some (put v q new)) Ej) as H1. cbn beta iota in H1.
           pose proof (vdrops_put q t v f b new Hv Em El) as H2. clear - H1 H2. destruct (f_drop f); perm.
        -- apply Forall_replace; [exact HH|]. cbn [hd_vok]. eapply put_vok; eauto.
      * exists []. split; [clear; perm|auto].
    + destruct (nth_error hd j) as [[v|]|] eqn:Ej; auto.
      refine (Hthen _ _ _ _ cmds _ _ [] _ _ (IH rest (replace_nth hd j None) HR _)). 2: cbn [existsb forgets orb]; auto.
      * pose proof (hd_replace t hd j v None Ej) as H1. cbn beta iota in H1. clear - H1. perm.
      * now apply Forall_replace.
    + destruct (nth_error hd j) as [[v|]|] eqn:Ej; auto.
      refine (Hthen _ _ _ _ cmds _ _ (vdrops t v) _ _ (IH rest (replace_nth hd j None) HR _)). 2: cbn [existsb forgets orb]; discriminate.
      * pose proof (hd_replace t hd j v None Ej) as H1. cbn beta iota in H1. clear - H1. perm.
      * now apply Forall_replace.
Qed.
Definition ctrl_vals (fs : flds) (cs : list (list cell)) : list (list cell) :=
  concat (map (fun fc => if f_drop (fst fc) then [snd fc] else []) (combine (ctrl_types fs) cs)).
Lemma ctrl_drops_vals fs : forall cs, drops_of (ctrl_drops (ctrl_types fs) cs) = ctrl_vals fs cs.
Proof.
  unfold ctrl_vals. generalize (ctrl_types fs). induction l as [|f l IH]; intros [|c cs]; cbn [ctrl_drops combine map concat fst snd]; auto.
  rewrite drops_app, drops_ev, IH. reflexivity.
Qed.
Lemma vdrops_ctrls fs : forall vs cs news, vok_flds fs vs cs -> ctrls_ok fs news ->
  Permutation (vdrops_flds fs (with_ctrls fs vs news) ++ ctrl_vals fs (vctrls fs vs)) (vdrops_flds fs vs ++ ctrl_vals fs news).
Proof.
  unfold ctrl_vals, ctrls_ok.
  induction fs as [|off f r IH|off f r IH|t r IH|f lf r IH]; intros vs cs news Hv Hn; (destruct vs as [|v vs]; try contradiction).
  - reflexivity.
  - destruct v; try contradiction. specialize (IH _ _ _ (proj2 Hv) Hn). cbn [vctrls ctrl_types with_ctrls vdrops_flds]. perm.
  - destruct v; try contradiction. cbn [ctrl_types] in Hn. inversion Hn as [|? c ? news' Hc Hn']; subst.
    specialize (IH _ _ _ (proj2 Hv) Hn'). cbn [vctrls ctrl_types with_ctrls vdrops_flds combine map concat fst snd]. destruct (f_drop f); perm.
  - specialize (IH _ _ _ (proj2 Hv) Hn). cbn [vctrls ctrl_types with_ctrls vdrops_flds]. perm.
  - destruct v; try contradiction. specialize (IH _ _ _ (proj2 (proj2 Hv)) Hn). cbn [vctrls ctrl_types with_ctrls vdrops_flds]. perm.
Qed.
(** ** writing well-typed parts keeps values well-typed *)
Definition vals_ok (σ : list aval) : Prop := forall h u, nth_error σ h = Some u -> val_ok u.
Lemma inv_vals_ok w sl σ n : Inv w sl σ n -> vals_ok σ.
Proof. intros HI h u Hu. destruct (at_h_vals w sl σ n h u HI Hu) as (s & _ & Hrep). eapply rep_val_ok, Hrep. Qed.
Lemma vctrls_fld fs : forall vs j t u', varlen_field fs j = Some t -> vctrls fs (replace_nth vs j u') = vctrls fs vs.
Proof.
  induction fs as [|off f r IH|off f r IH|t r IH|f lf r IH]; intros vs j t' u' Hj;
    cbn [varlen_field] in Hj; [discriminate| | | |]; (destruct vs as [|v vs]; [destruct j; reflexivity|]);
    (destruct j as [|j]; cbn [varlen_field replace_nth vctrls] in *; try discriminate); try reflexivity;
    try (destruct v; try reflexivity; rewrite (IH vs j t' u' Hj); reflexivity); exact (IH vs j t' u' Hj).
Qed.
Lemma vok_fld fs : forall vs cs j t u', vok_flds fs vs cs -> varlen_field fs j = Some t -> vok t u' -> vok_flds fs (replace_nth vs j u') cs.
Proof.
  induction fs as [|off f r IH|off f r IH|t r IH|f lf r IH]; intros vs cs j t' u' Hv Hj Hu;
    cbn [varlen_field] in Hj; [discriminate| | | |]; (destruct vs as [|v vs]; [contradiction|]);
    (destruct j as [|j]; cbn [varlen_field replace_nth] in *; try discriminate).
  - destruct v; try contradiction. split; [apply Hv|]. eapply IH; eauto. apply Hv.
  - destruct v; try contradiction. split; [apply Hv|]. eapply IH; eauto. apply Hv.
  - injection Hj as ->. split; [exact Hu|apply Hv].
  - split; [apply Hv|]. eapply IH; eauto. apply Hv.
  - destruct v; try contradiction. split; [apply Hv|]. split; [apply Hv|]. eapply IH; eauto. apply Hv.
Qed.
Lemma putsub_vok p : forall t v t' v' new, vok t v -> subval t v p = Some (t', v') -> vok t' new -> vok t (putsub v p new).
Proof.
  induction p as [| |p IH|j p IH]; intros t v t' v' new Hv H Hn; cbn [subval putsub] in *; try discriminate.
  - now injection H as <- <-.
  - destruct t; try discriminate. destruct v; try discriminate. cbn [vok] in *. eapply IH; eauto.
  - destruct t as [| | |kd hs ha fs]; try discriminate. destruct v as [| | |us]; try discriminate.
    destruct (varlen_field fs j) as [t0|] eqn:Ef; try discriminate. destruct (nth_error us j) as [u|] eqn:Eu; try discriminate.
    cbn [vok] in *. rewrite (vctrls_fld fs us j t0 _ Ef). eapply vok_fld; eauto. eapply IH; eauto. eapply vok_sub; eauto.
Qed.
Lemma put_vals_ok σ pl t v new : vals_ok σ -> at_place σ pl = Some (t, v) -> vok t new -> vals_ok (put_place σ pl new).
Proof.
  intros HI Hp Hn. assert (HS : forall h x, val_ok x -> vals_ok (replace_nth σ h x)).
  { intros h x Hx h' u. rewrite nth_replace_nth. destruct (Nat.eq_dec h h'); [|apply HI]. destruct (nth_error σ h'); [|discriminate]. cbn [option_map]. intros E. injection E as <-. exact Hx. }
  destruct pl as [h p|h k p|h b o p]; cbn [at_place put_place] in *.
  - destruct (nth_error σ h) as [[t0 v0|t0 v0|t0 c vs old|]|] eqn:Eh; try discriminate; apply HS; cbn [val_ok]; eapply putsub_vok; eauto; exact (HI h _ Eh).
  - destruct (nth_error σ h) as [[t0 v0|t0 v0|t0 c vs old|]|] eqn:Eh; try discriminate. destruct (nth_error vs k) as [v0|] eqn:Ek; [|discriminate].
    apply HS. cbn [val_ok]. pose proof (HI h _ Eh) as Hv. cbn [val_ok] in Hv. apply Forall_replace; [exact Hv|]. eapply putsub_vok; eauto.
    exact (proj1 (Forall_forall _ _) Hv v0 (nth_error_In _ _ Ek)).
  - destruct (nth_error σ h) as [[t0 v0|t0 v0|t0 c vs old|]|] eqn:Eh; try discriminate. destruct (b || c); [|discriminate].
    destruct (index_of o (starts t0 vs 0)) as [k|]; [|discriminate]. destruct (nth_error vs k) as [v0|] eqn:Ek; [|discriminate].
    apply HS. cbn [val_ok]. pose proof (HI h _ Eh) as Hv. cbn [val_ok] in Hv. apply Forall_replace; [exact Hv|]. eapply putsub_vok; eauto.
    exact (proj1 (Forall_forall _ _) Hv v0 (nth_error_In _ _ Ek)).
Qed.
Lemma held_put_vals σ pl t v new : vals_ok σ -> at_place σ pl = Some (t, v) ->
  Permutation (held (put_place σ pl new) ++ vdrops t v) (held σ ++ vdrops t new).
Proof.
  intros HI Hp. destruct pl as [h p|h k p|h u o p]; cbn [at_place put_place] in *.
  - destruct (nth_error σ h) as [[t0 v0|t0 v0|t0 c vs old|]|] eqn:Eh; try discriminate;
      (pose proof (HI h _ Eh) as Hv; cbn [val_ok] in Hv; pose proof (vdrops_putsub p t0 v0 t v new Hv Hp) as H1).
    + pose proof (held_replace σ h _ (ABox t0 (putsub v0 p new)) Eh) as H2. cbn [owned_drops] in H2. perm.
    + pose proof (held_replace σ h _ (AOwn t0 (putsub v0 p new)) Eh) as H2. cbn [owned_drops] in H2. perm.
  - destruct (nth_error σ h) as [[t0 v0|t0 v0|t0 c vs old|]|] eqn:Eh; try discriminate.
    destruct (nth_error vs k) as [v0|] eqn:Ek; [|discriminate].
    pose proof (HI h _ Eh) as Hv; cbn [val_ok] in Hv; pose proof (proj1 (Forall_forall _ _) Hv v0 (nth_error_In _ _ Ek)) as Ho.
    pose proof (vdrops_putsub p t0 v0 t v new Ho Hp) as H1.
    pose proof (held_replace σ h _ (ASeq t0 c (replace_nth vs k (putsub v0 p new)) old) Eh) as H2. cbn [owned_drops] in H2.
    destruct (concat_replace (vdrops t0) vs k v0 (putsub v0 p new) Ek) as (a1 & a2 & E1 & E2). rewrite E1, E2 in H2. perm.
  - destruct (nth_error σ h) as [[t0 v0|t0 v0|t0 c vs old|]|] eqn:Eh; try discriminate.
    destruct (u || c); [|discriminate].
    destruct (index_of o (starts t0 vs 0)) as [k|]; [|discriminate].
    destruct (nth_error vs k) as [v0|] eqn:Ek; [|discriminate].
    pose proof (HI h _ Eh) as Hv; cbn [val_ok] in Hv; pose proof (proj1 (Forall_forall _ _) Hv v0 (nth_error_In _ _ Ek)) as Ho.
    pose proof (vdrops_putsub p t0 v0 t v new Ho Hp) as H1.
    pose proof (held_replace σ h _ (ASeq t0 c (replace_nth vs k (putsub v0 p new)) old) Eh) as H2. cbn [owned_drops] in H2.
    destruct (concat_replace (vdrops t0) vs k v0 (putsub v0 p new) Ek) as (a1 & a2 & E1 & E2). rewrite E1, E2 in H2. perm.
Qed.
Lemma held_put w sl σ n pl t v new : Inv w sl σ n -> at_place σ pl = Some (t, v) ->
  Permutation (held (put_place σ pl new) ++ vdrops t v) (held σ ++ vdrops t new).
Proof. intros HI. apply held_put_vals. eapply inv_vals_ok, HI. Qed.
Lemma perm_nil (a b : list (list cell)) : Permutation a (b ++ []) -> Permutation a b.
Proof. now rewrite app_nil_r. Qed.

(** An initializer: what it owned is either in the new object or destroyed. *)
Lemma init_balance w sl σ n t p i r d vd :
  Inv w sl σ n -> wf_ty t -> den σ t p i -> NoDup (moves p) ->
  match r with
  | Done _ => exists v, ival t i = Some v /\ vd = vdrops t v /\ d = []
  | Panicked => vd = [] /\ (d = drops_of (idrop t i) \/ ival t i = None /\ d = drops_of (fst (irun t i)))
  end ->
  exists leaked, Permutation (held σ ++ init_ins t i r) (held (kill_vals σ (moves p)) ++ vd ++ d ++ leaked) /\
    (init_calm t i r = true -> leaked = []).
Proof.
  intros HI Hwf Hd Hnd H. pose proof (den_iwt w sl σ n t p i HI Hwf Hd) as Hi.
  pose proof (proj1 (den_owned w sl σ n HI) t p i Hd) as Ho. pose proof (held_kill (moves p) σ Hnd) as Hk.
  unfold init_ins, init_calm. destruct r as [o|].
  - destruct H as (v & Ev & -> & ->). exists []. split; [|auto].
    pose proof (proj1 ival_made t i v Hi Ev) as Hv. perm.
  - destruct H as (-> & [-> | (En & ->)]).
    + exists []. split; [|auto]. rewrite (proj1 (proj1 idrop_own_all t i Hi)). perm.
    + rewrite En. pose proof (proj2 (proj1 irun_own_all t i Hi)) as Hr. rewrite (proj1 irun_ival), En in Hr. destruct Hr as (leaked & Hr).
      exists leaked. split; [perm|discriminate].
Qed.
Lemma seq_wf w sl σ n h t chk vs old : Inv w sl σ n -> nth_error σ h = Some (ASeq t chk vs old) -> wf_ty t.
Proof. intros HI H. destruct (seq_slot w sl σ n h t chk vs old HI H) as (s & _ & Hwf & _). exact Hwf. Qed.
Lemma seq_vok w sl σ n h t chk vs old : Inv w sl σ n -> nth_error σ h = Some (ASeq t chk vs old) -> Forall (vok t) vs.
Proof.
  intros HI H. apply Forall_forall. intros v Hv. apply In_nth_error in Hv. destruct Hv as (k & Ek).
  destruct (resolve_ok w sl σ n (PlElem h k PHere) t v HI ltac:(cbn [at_place]; rewrite H, Ek; reflexivity)) as (a & s1 & v1 & _ & _ & Ho & _). apply Ho.
Qed.
Lemma allowed_moves w sl σ n o : Inv w sl σ n -> allowed σ o ->
  match o with
  | ONewBox t p | ONewOwned t p => wf_ty t /\ NoDup (moves p)
  | OPush h p => NoDup (moves p) /\ ~ In h (moves p) /\ forall t chk vs old, nth_error σ h = Some (ASeq t chk vs old) -> wf_ty t
  | OControllers pl news => forall hs ha fs vs, at_place σ pl = Some (TRec KStruct hs ha fs, VRec vs) -> ctrls_ok fs news
  | _ => True
  end.
Proof.
  intros HI H. destruct H; auto.
  - match goal with B : borrow_ok _ _ |- _ => destruct B as (B1 & _) end. auto.
  - match goal with B : borrow_ok _ _ |- _ => destruct B as (B1 & _) end. auto.
  - match goal with B : borrow_ok _ _ |- _ => destruct B as (B1 & B2 & _) end. split; [exact B1|]. split.
    + intros Hin. destruct (B2 _ Hin) as [_ X]. apply X. left. reflexivity.
    + intros. eapply seq_wf; eauto.
  - intros hs0 ha0 fs0 vs0 E. rewrite H in E. injection E as <- <- <- <-. assumption.
Qed.
Ltac same :=
  repeat match goal with
  | [A : den ?s ?t ?p ?i, B : den ?s ?t ?p ?j |- _] =>
      assert (i = j) by (eapply (proj1 (den_fun s)); eassumption); clear B; subst
  | [A : nth_error ?s ?h = Some _, B : nth_error ?s ?h = Some _ |- _] => rewrite A in B; injection B; intros; subst; clear B
  | [A : at_place ?s ?h = Some _, B : at_place ?s ?h = Some _ |- _] => rewrite A in B; injection B; intros; subst; clear B
  end.
Lemma path_eq_dec (p q : path) : {p = q} + {p <> q}.
Proof. decide equality; [apply N.eq_dec|apply Nat.eq_dec]. Qed.
Lemma step_balance w sl σ n o r σ' d ins calm :
  Inv w sl σ n -> allowed σ o -> astep σ o r σ' d -> brings σ o r ins calm ->
  exists leaked, Permutation (held σ ++ ins) (held σ' ++ d ++ leaked) /\ (calm = true -> leaked = []).
Proof.
  intros HI Hal Hs Hb. pose proof (allowed_moves w sl σ n o HI Hal) as Hm.
  assert (Hsame : forall l : list (list cell), Permutation (held σ ++ []) (l ++ [] ++ []) <-> Permutation (held σ) l)
    by (intros l; now rewrite !app_nil_r).
  assert (Hpush : forall h t chk vs old v hs, nth_error σ h = Some (ASeq t chk vs old) -> ~ In h hs ->
     Permutation (held (replace_nth (kill_vals σ hs) h (ASeq t chk (vs ++ [v]) old))) (held (kill_vals σ hs) ++ vdrops t v)).
  { intros h t chk vs old v hs Hh Hn.
    assert (Hk : nth_error (kill_vals σ hs) h = Some (ASeq t chk vs old)).
    { rewrite kill_vals_kills, nth_kills. destruct (in_dec Nat.eq_dec h hs); [contradiction|exact Hh]. }
    pose proof (held_replace _ h _ (ASeq t chk (vs ++ [v]) old) Hk) as H. cbn [owned_drops] in H.
    rewrite map_app, concat_app in H. cbn [map concat] in H. rewrite app_nil_r in H. perm. }
  destruct Hs; inversion Hb; subst; try contradiction; same.
  - match goal with D : den σ t p ?j |- _ => destruct (init_balance w sl σ n t p j (Done OutUnit) [] (vdrops t v) HI (proj1 Hm) D (proj2 Hm) ltac:(cbn; eauto)) as (l & E & C) end.
    exists l. split; [|exact C]. rewrite held_app. change (held [ABox t v]) with (vdrops t v ++ []) || change (held [AOwn t v]) with (vdrops t v ++ []) || change (held [ASeq t chk [] []]) with (@nil (list cell)). perm.
  - match goal with D : den σ t p ?j |- _ => apply (init_balance w sl σ n t p j Panicked _ [] HI (proj1 Hm) D (proj2 Hm)) end. auto.
  - match goal with D : den σ t p ?j |- _ => apply (init_balance w sl σ n t p j Panicked _ [] HI (proj1 Hm) D (proj2 Hm)) end. auto.
  - match goal with D : den σ t p ?j |- _ => destruct (init_balance w sl σ n t p j (Done OutUnit) [] (vdrops t v) HI (proj1 Hm) D (proj2 Hm) ltac:(cbn; eauto)) as (l & E & C) end.
    exists l. split; [|exact C]. rewrite held_app. change (held [ABox t v]) with (vdrops t v ++ []) || change (held [AOwn t v]) with (vdrops t v ++ []) || change (held [ASeq t chk [] []]) with (@nil (list cell)). perm.
  - match goal with D : den σ t p ?j |- _ => apply (init_balance w sl σ n t p j Panicked _ [] HI (proj1 Hm) D (proj2 Hm)) end. auto.
  - match goal with D : den σ t p ?j |- _ => apply (init_balance w sl σ n t p j Panicked _ [] HI (proj1 Hm) D (proj2 Hm)) end. auto.
  - exists []. split; [|auto]. rewrite Hsame, held_app. unfold held at 3. cbn [map concat owned_drops app]. now rewrite app_nil_r.
  - destruct Hm as (M1 & M2 & M3). match goal with A : nth_error σ h = Some _, B : den _ _ _ _ |- _ => rename A into Hh, B into Hd end.
    match type of Hd with den _ ?T ?P ?j => destruct (init_balance w sl σ n T P j (Done OutUnit) [] (vdrops T v) HI (M3 _ _ _ _ Hh) Hd M1 ltac:(cbn; eauto)) as (l & E & C) end.
    exists l. split; [|exact C]. pose proof (Hpush _ _ _ _ _ v _ Hh M2). perm.
  - destruct Hm as (M1 & M2 & M3). match goal with A : nth_error σ h = Some _, B : den _ _ _ _ |- _ => rename A into Hh, B into Hd end.
    match type of Hd with den _ ?T ?P ?j => apply (init_balance w sl σ n T P j Panicked _ [] HI (M3 _ _ _ _ Hh) Hd M1) end. auto.
  - destruct Hm as (M1 & M2 & M3). match goal with A : nth_error σ h = Some _, B : den _ _ _ _ |- _ => rename A into Hh, B into Hd end.
    match type of Hd with den _ ?T ?P ?j => apply (init_balance w sl σ n T P j Panicked _ [] HI (M3 _ _ _ _ Hh) Hd M1) end. auto.
  - exists []. split; [|auto]. pose proof (held_replace σ h v ADead H) as E. cbn [owned_drops] in E. unfold kill_vals. cbn [fold_left]. perm.
  - exists []. split; [|auto]. match goal with A : at_place σ pl = Some _ |- _ => rename A into Hp end.
    match goal with A : mut_leaf _ q = Some ?f1, B : mut_leaf _ q = Some ?f2 |- _ => assert (f1 = f2) by congruence; subst end.
    match type of Hp with _ = Some (?T, ?V) =>
      match goal with A : mut_leaf T q = Some ?F, B : leaf V q = Some ?b |- _ =>
        pose proof (held_put w sl σ n pl T V (put V q new) HI Hp) as E;
        destruct (resolve_ok w sl σ n pl _ _ HI Hp) as (a & s1 & v1 & _ & _ & Ho & _);
        pose proof (vdrops_put q T V F b new (proj1 Ho) A B) as E2; destruct (f_drop F); perm
      end end.
  - exists []. split; [|auto]. now apply Hsame.
  - exists []. split; [|auto]. match goal with A : at_place σ pl = Some _ |- _ => rename A into Hp end.
    match type of Hp with _ = Some (TRec _ _ _ ?FS, VRec ?VS) =>
      pose proof (held_put w sl σ n pl _ _ (VRec (with_ctrls FS VS news)) HI Hp) as E;
      destruct (resolve_ok w sl σ n pl _ _ HI Hp) as (a & s1 & v1 & _ & _ & Ho & _);
      pose proof (vdrops_ctrls FS VS _ news (proj1 Ho) (Hm _ _ _ _ Hp)) as E2; cbn [vdrops] in E; rewrite ctrl_drops_vals; fold (ctrl_vals FS news); perm
    end.
  - exists []. split; [|auto]. rewrite ctrl_drops_vals. rewrite app_nil_r. apply Permutation_app_comm || reflexivity.
  - exists []. split; [|auto]. rewrite ctrl_drops_vals. rewrite app_nil_r. apply Permutation_app_comm || reflexivity.
  - exists []. split; [|auto]. pose proof (held_replace σ h _ (ASeq t chk [] (old ++ starts t vs 0 ++ [total t vs])) H) as E.
    cbn [owned_drops map concat] in E. perm.
  - exists []. split; [|auto]. now apply Hsame.
  - exists []. split; [|auto]. now apply Hsame.
  - exists []. split; [|auto]. now apply Hsame.
  - exists []. split; [|auto]. now apply Hsame.
  - exists []. split; [|auto]. now apply Hsame.
  - exists []. split; [|auto]. now apply Hsame.
  - exists []. split; [|auto]. now apply Hsame.
  - exists []. split; [|auto]. now apply Hsame.
  - exists []. split; [|auto]. now apply Hsame.
  - exists []. split; [|auto]. now apply Hsame.
  - exists []. split; [|auto]. now apply Hsame.
  - exists (match nth_error σ h with Some v => owned_drops v | None => [] end). split; [|discriminate]. inversion Hal; subst.
    match goal with A : nth_error σ h = Some ?v |- _ => rewrite A; pose proof (held_replace σ h v ADead A) as E end.
    cbn [owned_drops] in E. unfold kill_vals. cbn [fold_left]. perm.
  - match goal with A : nth_error σ h = Some (ASeq ?T ?C ?VS ?OLD), B : take_eval _ _ _ _ = _ |- _ =>
      pose proof (take_balance T cmds VS [] (seq_vok w sl σ n h T C VS OLD HI A) (Forall_nil _)) as E; rewrite B in E;
      pose proof (held_replace σ h _ (ASeq T C [] (OLD ++ starts T VS 0 ++ [total T VS])) A) as E2 end.
    destruct E as (lost & HP & HL). cbn [owned_drops map concat] in E2. unfold rest_drops in HP. cbn [hd_drops map concat] in HP.
    destruct keep.
    + match type of HP with Permutation _ (?R ++ _) => exists (lost ++ R) end. split; [perm|discriminate].
    + exists lost. split; [perm|]. cbn [orb]. rewrite negb_true_iff. exact HL.
  - match goal with A : nth_error σ h = Some (ASeq ?T ?C ?VS ?OLD), B : take_eval _ _ _ _ = _ |- _ =>
      pose proof (take_balance T cmds VS [] (seq_vok w sl σ n h T C VS OLD HI A) (Forall_nil _)) as E; rewrite B in E;
      pose proof (held_replace σ h _ (ASeq T C [] (OLD ++ starts T VS 0 ++ [total T VS])) A) as E2 end.
    destruct E as (lost & HP & HL). cbn [owned_drops map concat] in E2. unfold rest_drops in HP. cbn [hd_drops map concat] in HP.
    exists lost. split; [perm|]. rewrite negb_true_iff. destruct keep; [discriminate|exact HL].
  - exists []. split; [|auto]. rewrite Hsame. match goal with A : at_place σ pl = Some _ |- _ => rename A into Hp end.
    inversion Hal as [| | | | | | | | | | | | | | | | | | |? ? ? t1 v1 f Hp1 Hm1 Hm2| |]; subst. rewrite Hp in Hp1. injection Hp1 as <- <-.
    pose proof (held_put w sl σ n pl t v (put (put v q y) q' x) HI Hp) as E.
    destruct (resolve_ok w sl σ n pl _ _ HI Hp) as (a & s1 & v1 & _ & Hwf & Ho & _).
    pose proof (leaf_at t w a v q f Hwf Ho Hm1) as L1. pose proof (leaf_at t w a v q' f Hwf Ho Hm2) as L2.
    match goal with A : leaf v q = Some x, B : leaf v q' = Some y |- _ => rewrite A in L1; rewrite B in L2; rename A into El, B into El' end.
    destruct L1 as (_ & _ & _ & Nx & _), L2 as (_ & _ & _ & Ny & _).
    pose proof (vdrops_put q t v f x y (proj1 Ho) Hm1 El) as E1.
    pose proof (vdrops_put q' t (put v q y) f y x (put_vok q t v f x y (proj1 Ho) Hm1 El Ny) Hm2) as E2.
    assert (El2 : leaf (put v q y) q' = Some y) by (destruct (path_eq_dec q q') as [<-|Hq]; [eapply leaf_put_eq; exact El|rewrite leaf_put_ne; auto]).
    specialize (E2 El2). destruct (f_drop f); perm.
  - exists []. split; [|auto]. now apply Hsame.
  - exists []. split; [|auto]. rewrite Hsame.
    inversion Hal as [| | | | | | | | | | | | | | | | | | | |? ? ? ? t1 v1 t1' v1' f Hp Hp' Haw Hm1 Hm2|]; subst.
    match goal with A : at_place σ pl = Some (t, v), B : at_place σ pl' = Some (t', v') |- _ =>
      rewrite A in Hp; rewrite B in Hp'; injection Hp as <- <-; injection Hp' as <- <-; rename A into Hp, B into Hp' end.
    destruct (resolve_ok w sl σ n pl _ _ HI Hp) as (a & s1 & v1 & _ & Hwf & Ho & _).
    destruct (resolve_ok w sl σ n pl' _ _ HI Hp') as (a' & s1' & v1' & _ & Hwf' & Ho' & _).
    pose proof (leaf_at t w a v q f Hwf Ho Hm1) as L1. pose proof (leaf_at t' w a' v' q' f Hwf' Ho' Hm2) as L2.
    match goal with A : leaf v q = Some x, B : leaf v' q' = Some y |- _ => rewrite A in L1; rewrite B in L2; rename A into El, B into El' end.
    destruct L1 as (_ & _ & _ & Nx & _), L2 as (_ & _ & _ & Ny & _).
    pose proof (vdrops_put q t v f x y (proj1 Ho) Hm1 El) as E1. pose proof (vdrops_put q' t' v' f y x (proj1 Ho') Hm2 El') as E2.
    pose proof (held_put w sl σ n pl t v (put v q y) HI Hp) as E3.
    pose proof (put_vals_ok σ pl t v (put v q y) (inv_vals_ok _ _ _ _ HI) Hp (put_vok q t v f x y (proj1 Ho) Hm1 El Ny)) as HV.
    pose proof (at_place_away σ pl pl' _ _ _ _ _ Hp (put_shape y q v : vshape (put v q y) = vshape v) Hp' Haw) as Hp1.
    pose proof (held_put_vals _ pl' t' v' (put v' q' x) HV Hp1) as E4. clear - E1 E2 E3 E4. destruct (f_drop f); perm.
  - exists []. split; [|auto]. now apply Hsame.
  - exists []. split; [|auto]. rewrite Hsame.
    inversion Hal as [| | | | | | | | | | | | | | | | | | | | |U ? ? t1 v1 v1' Hp Hp' Haw Hun]; subst.
    match goal with A : at_place σ pl = Some (t, v), B : at_place σ pl' = Some (t, v') |- _ =>
      rewrite A in Hp; rewrite B in Hp'; injection Hp as <- <-; injection Hp' as <-; rename A into Hp, B into Hp' end.
    destruct (resolve_ok w sl σ n pl _ _ HI Hp) as (a & s1 & v1 & _ & Hwf & Ho & _).
    destruct (resolve_ok w sl σ n pl' _ _ HI Hp') as (a' & s1' & v1' & _ & Hwf' & Ho' & _).
    pose proof (proj1 (unpin_vshape U t v v' Hun (proj1 Ho) (proj1 Ho'))) as Esh.
    pose proof (held_put w sl σ n pl t v v' HI Hp) as E3.
    pose proof (put_vals_ok σ pl t v v' (inv_vals_ok _ _ _ _ HI) Hp (proj1 Ho')) as HV.
    pose proof (at_place_away σ pl pl' _ _ _ _ _ Hp (eq_sym Esh) Hp' Haw) as Hp1.
    pose proof (held_put_vals _ pl' t v' v HV Hp1) as E4. clear - E3 E4. perm.
Qed.
Lemma brings_total w sl σ n o r : Inv w sl σ n -> allowed σ o -> exists ins calm, brings σ o r ins calm.
Proof.
  intros HI H. destruct H; try (eexists _, _; econstructor; eauto; fail); eexists _, _; apply G_other; exact I.
Qed.
Lemma account_reach w sl σ ins calm : account w sl σ ins calm -> exists n, reach w sl σ n.
Proof.
  induction 1 as [w Hb _|w sl σ ins calm o r w' sl' σ' evs ins' calm' H [n IH] Hal E _ Hs _|w sl σ ins calm o w' sl' σ' evs ins' calm' H [n IH] Hal E _ Hs _].
  - exists 0%nat. now constructor.
  - eexists. eapply R_done; eauto.
  - eexists. eapply R_panicked; eauto.
Qed.

(** Every program can be accounted for: an allowed operation in an accounted state ends in an
    accounted state (or runs into the missing null check of VBox::new, see C28 and C45). *)
Theorem C50_accounted : forall w sl σ ins calm o,
  account w sl σ ins calm -> allowed σ o ->
  match exec o (w, sl) with
  | Ok r (w', sl') => exists σ' ins' calm', brings σ o (Done r) ins' calm' /\ account w' sl' σ' (ins ++ ins') (calm && calm')
  | Panic (w', sl') => exists σ' ins' calm', brings σ o Panicked ins' calm' /\ account w' sl' σ' (ins ++ ins') (calm && calm')
  | UB u => u = UNull /\ exists t p, o = ONewBox t p
  end.
Proof.
  intros w sl σ ins calm o Ha Hal. destruct (account_reach _ _ _ _ _ Ha) as (n & HR). pose proof (reach_inv _ _ _ _ HR) as HI.
  pose proof (exec_ok w sl σ n o HI Hal) as H. destruct (exec o (w, sl)) as [r [w' sl']|[w' sl']|u] eqn:E; cbn [step_res] in H; unfold step_ok in H.
  - destruct H as (σ' & evs & A & L & _). destruct (brings_total w sl σ n o (Done r) HI Hal) as (ins' & calm' & Hb).
    exists σ', ins', calm'. split; [exact Hb|]. eapply K_done; eauto.
  - destruct H as (σ' & evs & A & L & _). destruct (brings_total w sl σ n o Panicked HI Hal) as (ins' & calm' & Hb).
    exists σ', ins', calm'. split; [exact Hb|]. eapply K_panicked; eauto.
  - destruct H as [-> (t & p & i & -> & _)]. eauto.
Qed.
(** At any point of any program, the values that have entered are, each exactly as often as it
    entered: held by the program, or destroyed, or lost in the panic of client code called by an
    initializer or in mem::forget. If there was neither, nothing is lost. *)
Theorem C50_balance : forall w sl σ ins calm,
  account w sl σ ins calm ->
  exists lost, Permutation ins (held σ ++ drops_of (w_log w) ++ lost) /\ (calm = true -> lost = []).
Proof.
  intros w sl σ ins calm Ha.
  assert (G : forall w sl σ ins calm o r w' σ' evs ins' calm', account w sl σ ins calm -> allowed σ o ->
     w_log w' = w_log w ++ evs -> astep σ o r σ' (drops_of evs) -> brings σ o r ins' calm' ->
     (exists lost, Permutation ins (held σ ++ drops_of (w_log w) ++ lost) /\ (calm = true -> lost = [])) ->
     exists lost, Permutation (ins ++ ins') (held σ' ++ drops_of (w_log w') ++ lost) /\ (calm && calm' = true -> lost = [])).
  { clear. intros w sl σ ins calm o r w' σ' evs ins' calm' Ha Hal L Hs Hb (lost & HP & HL).
    destruct (account_reach _ _ _ _ _ Ha) as (n & HR). pose proof (reach_inv _ _ _ _ HR) as HI.
    destruct (step_balance w sl σ n o r σ' _ ins' calm' HI Hal Hs Hb) as (l & E & C).
    exists (lost ++ l). rewrite L, drops_app. split; [perm|]. intros Hc. apply andb_true_iff in Hc. destruct Hc as [H1 H2].
    now rewrite HL, C. }
  induction Ha as [w Hb Hl|w sl σ ins calm o r w' sl' σ' evs ins' calm' H IH Hal E L Hs Hb|w sl σ ins calm o w' sl' σ' evs ins' calm' H IH Hal E L Hs Hb].
  - exists []. rewrite Hl. split; [constructor|auto].
  - eapply G; eauto.
  - eapply G; eauto.
Qed.
(** So no value is ever destroyed more often than it entered, and a value the program still holds has
    a destruction left. *)
Theorem C50_no_double_drop : forall w sl σ ins calm x,
  account w sl σ ins calm ->
  (count_occ leaf_dec (drops_of (w_log w)) x + count_occ leaf_dec (held σ) x <= count_occ leaf_dec ins x)%nat.
Proof.
  intros w sl σ ins calm x Ha. destruct (C50_balance _ _ _ _ _ Ha) as (lost & HP & _).
  rewrite (Permutation_count_occ leaf_dec) in HP. rewrite (HP x), !count_occ_app. lia.
Qed.
(** And once a program has given up everything it held, each value that entered has been destroyed
    exactly once. *)
Theorem C50_all_dropped : forall w sl σ ins,
  account w sl σ ins true -> held σ = [] -> Permutation ins (drops_of (w_log w)).
Proof.
  intros w sl σ ins Ha Hh. destruct (C50_balance _ _ _ _ _ Ha) as (lost & HP & HL). rewrite Hh, (HL eq_refl), app_nil_r in HP. exact HP.
Qed.

(** The program of PropsProgram.v: a box is made from the values h1, h2, h3 by value, a clone of h2
    and h3 is made, h1 is assigned over the clone of h3, the box is dropped, then the sequence. *)
Lemma account_step c σ ins o r σ' d ins' : account (fst c) (snd c) σ ins true -> allowed σ o -> out_of (exec o c) = Some r ->
  (let evs := skipn (length (w_log (fst c))) (w_log (fst (step_cfg o c))) in
   w_log (fst (step_cfg o c)) = w_log (fst c) ++ evs /\ drops_of evs = d) ->
  astep σ o (Done r) σ' d -> brings σ o (Done r) ins' true ->
  account (fst (step_cfg o c)) (snd (step_cfg o c)) σ' (ins ++ ins') true.
Proof.
  destruct c as [w sl]. cbn [fst snd]. intros HA Hal Ho [L D] Hs Hb. unfold step_cfg in *.
  destruct (exec o (w, sl)) as [x [w' sl']|[w' sl']|] eqn:E; try discriminate. injection Ho as ->.
  cbn [cfg_of fst snd] in *. change true with (true && true). eapply K_done; eauto. rewrite D. exact Hs.
Qed.
Definition c7 := step_cfg (ODrop 1) c6.
Example C50_meets : account (fst c7) (snd c7) [ADead; ADead] [h1; h2; h3; h2; h3; h1] true.
Proof.
  assert (R1 : account (fst c1) (snd c1) σ1 [h1; h2; h3] true).
  { apply (account_step (w_start, []) [] [] op1 OutUnit σ1 [] [h1; h2; h3]); [now constructor| |vm_compute; reflexivity|vm_compute; auto| |].
    - apply L_new_box with i_ex; [apply t_ex_wf|apply p_ex_den| |vm_compute; reflexivity]. apply no_moves; [reflexivity|intros h []].
    - apply (A_new_box [] t_ex p_ex i_ex v_ex); [apply p_ex_den|vm_compute; reflexivity|vm_compute; reflexivity].
    - apply (G_box [] t_ex p_ex i_ex (Done OutUnit)). apply p_ex_den. }
  assert (R2 : account (fst c2) (snd c2) σ2 [h1; h2; h3] true).
  { apply (account_step c1 σ1 [h1; h2; h3] op2 OutUnit σ2 [] []); [exact R1| |vm_compute; reflexivity|vm_compute; auto|apply (A_new_seq σ1 t_tup true)|now apply G_other].
    apply L_new_seq; [apply t_tup_wf|apply t_tup_nonzst]. }
  assert (D3 : den σ2 t_tup p3 (clone_init t_tup v_tup)).
  { apply D_clone; [reflexivity|]. cbn. conc. }
  assert (R3 : account (fst c3) (snd c3) σ3 [h1; h2; h3; h2; h3] true).
  { apply (account_step c2 σ2 [h1; h2; h3] op3 OutUnit σ3 [] [h2; h3]); [exact R2| |vm_compute; reflexivity|vm_compute; auto| |].
    - eapply L_push; [reflexivity|exact D3|]. apply no_moves; [reflexivity|]. intros h [<-|[]] [H|[]]. discriminate.
    - apply (A_push σ2 1 p3 t_tup true [] [] (clone_init t_tup v_tup) v_tup); [reflexivity|exact D3|vm_compute; reflexivity|vm_compute; reflexivity].
    - apply (G_push σ2 1 p3 t_tup true [] [] (clone_init t_tup v_tup) (Done OutUnit)); [reflexivity|exact D3]. }
  assert (D4 : den σ3 t_tup p4
                 (IRec [ISized 0 (AMoveFrom []); ICopy 0 (VFix (by_ [1;2;3;4]))])).
  { unfold t_tup, p4. repeat constructor; try (vm_compute; reflexivity); try (unfold aok, elems_ok; cbn; conc). }
  assert (R4 : account (fst c4) (snd c4) σ4 [h1; h2; h3; h2; h3] true).
  { apply (account_step c3 σ3 [h1; h2; h3; h2; h3] op4 OutUnit σ4 [] []); [exact R3| |vm_compute; reflexivity|vm_compute; auto| |].
    - eapply L_push; [reflexivity|exact D4|]. apply no_moves; [reflexivity|]. intros h [<-|[]] [H|[]]. discriminate.
    - apply (A_push σ3 1 p4 t_tup true [v_tup] [] (IRec [ISized 0 (AMoveFrom []); ICopy 0 (VFix (by_ [1;2;3;4]))]) v_emp); [reflexivity|exact D4|vm_compute; reflexivity|vm_compute; reflexivity].
    - apply (G_push σ3 1 p4 t_tup true [v_tup] [] (IRec [ISized 0 (AMoveFrom []); ICopy 0 (VFix (by_ [1;2;3;4]))]) (Done OutUnit)); [reflexivity|exact D4]. }
  assert (R5 : account (fst c5) (snd c5) σ5 [h1; h2; h3; h2; h3; h1] true).
  { apply (account_step c4 σ4 [h1; h2; h3; h2; h3] op5 OutUnit σ5 [h3] [h1]); [exact R4| |vm_compute; reflexivity|vm_compute; auto| |].
    - eapply L_assign; [reflexivity|reflexivity|reflexivity].
    - apply (A_assign σ4 (PlElem 1 0 (PFld 0 PHere)) (PIdx 1) h1 (TArray f_box LU8) (VArr [h2; h3]) f_box h3); reflexivity.
    - apply (G_assign σ4 (PlElem 1 0 (PFld 0 PHere)) (PIdx 1) h1 (TArray f_box LU8) (VArr [h2; h3]) f_box (Done OutUnit)); reflexivity. }
  assert (R6 : account (fst c6) (snd c6) σ6 [h1; h2; h3; h2; h3; h1] true).
  { apply (account_step c5 σ5 [h1; h2; h3; h2; h3; h1] op6 OutUnit σ6 [h1; h2; h3] []); [exact R5| |vm_compute; reflexivity|vm_compute; auto| |now apply G_other].
    - eapply L_drop; [reflexivity|discriminate].
    - apply (A_drop σ5 0 (ABox t_ex v_ex)); [reflexivity|discriminate]. }
  apply (account_step c6 σ6 [h1; h2; h3; h2; h3; h1] (ODrop 1) OutUnit [ADead; ADead] [h2; h1] []); [exact R6| |vm_compute; reflexivity|vm_compute; auto| |now apply G_other].
  - eapply L_drop; [reflexivity|discriminate].
  - apply (A_drop σ6 1 (ASeq t_tup true [VRec [VArr [h2; h1]; VFix (by_ [1;2;3;4])]; v_emp] [])); [reflexivity|discriminate].
Qed.
