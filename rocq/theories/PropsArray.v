(** PropsArray.v - C32, C33, C34: array initializers, lengths, strings. *)
From Verif Require Export PropsMut.

(** ** C34 *)
(** Slot [i] of an array of [f] at [p]. *)
Definition slot (m : N -> cell) (f : fty) (p i : N) : list cell := rd m (p + i * f_size f) (f_size f).
(** Storage for [n] slots. *)
Definition slots_ok (w : world) (f : fty) (p n : N) : Prop :=
  p <> 0 /\ p mod f_align f = 0 /\ live (w_blocks w) p (n * f_size f).

Lemma gen_app l1 l2 : gen_run (l1 ++ l2) =
  match gen_run l1 with
  | (e, None) => (e, None)
  | (e, Some vs) => (e ++ fst (gen_run l2), option_map (app vs) (snd (gen_run l2)))
  end.
Proof.
  induction l1 as [|[pre [v|]] l1 IH]; cbn [app gen_run].
  - destruct (gen_run l2) as [e [vs|]]; reflexivity.
  - rewrite IH. destruct (gen_run l1) as [e [vs|]]; cbn [fst snd option_map]; [|reflexivity]. rewrite app_assoc. destruct (snd (gen_run l2)); reflexivity.
  - reflexivity.
Qed.
Lemma gen_upto_ok pre g x n : (forall i, i < n -> g i = Some (x i)) ->
  gen_run (map (fun i => (pre i, g i)) (upto n)) = (concat (map pre (upto n)), Some (map x (upto n))).
Proof.
  induction n as [|n IH] using N.peano_ind; intros H; [reflexivity|]. rewrite <- N.add_1_r, upto_snoc, !map_app, concat_app, gen_app.
  rewrite IH by (intros i Hi; apply H; lia). cbn [map gen_run]. rewrite (H n) by lia. cbn. now rewrite app_nil_r.
Qed.
Lemma gen_upto_fail pre g k n : k < n -> (forall i, i < k -> g i <> None) -> g k = None ->
  gen_run (map (fun i => (pre i, g i)) (upto n)) = (concat (map pre (upto (k + 1))), None).
Proof.
  intros Hk Hlt Hf. assert (E : exists l, upto n = upto k ++ k :: l).
  { unfold upto. exists (map N.of_nat (seq (S (N.to_nat k)) (N.to_nat n - S (N.to_nat k)))).
    replace (N.to_nat n) with (N.to_nat k + (1 + (N.to_nat n - S (N.to_nat k))))%nat at 1 by lia.
    rewrite seq_app, map_app. cbn [Nat.add seq map]. now rewrite N2Nat.id. }
  destruct E as [l ->]. rewrite map_app, gen_app. cbn [map].
  rewrite (gen_upto_ok pre g (fun i => match g i with Some v => v | None => [] end) k).
  - cbn [gen_run]. rewrite Hf. cbn. rewrite upto_snoc, map_app, concat_app. cbn. now rewrite app_nil_r.
  - intros i Hi. specialize (Hlt i Hi). destruct (g i); congruence.
Qed.
Lemma slots_read f p n xs m : elems_ok f xs -> len xs = n -> rd m p (n * f_size f) = concat xs ->
  forall i d, i < n -> slot m f p i = nth (N.to_nat i) xs d.
Proof.
  intros Hx <- Hr i d Hi. unfold slot. eapply arr_elem; eauto. apply nth_error_nth'. unfold len in Hi. lia.
Qed.
Lemma nth_map_upto {A} (x : N -> A) n i d : i < n -> nth (N.to_nat i) (map x (upto n)) d = x i.
Proof.
  intros H. rewrite (nth_indep _ d (x 0)) by (rewrite map_length; unfold upto; rewrite map_length, seq_length; lia).
  rewrite map_nth. unfold upto. change 0 with (N.of_nat 0). rewrite map_nth, seq_nth by lia. f_equal. lia.
Qed.

(** FillSequentially, FillWithDefault, FromIterPrefix. [pre] is what is observable of producing item
    [i]. If the first [n] items exist, slot i holds item i, for all i < n, the closure / iterator was
    called once for each index in ascending order, and nothing else changed. *)
Definition producer (ai : ainit) (g : N -> option (list cell)) (pre : N -> list event) : Prop :=
  (ai = AFillSeq g /\ pre = fun i => [ECall i]) \/ (ai = AFillDefault g /\ pre = fun i => [ECall i]) \/
  (ai = AIterPrefix g /\ pre = fun _ => [ENext]).
Theorem C34_producers_fill : forall f ai g pre p n w x,
  fty_ok f -> producer ai g pre -> gen_ok f g -> slots_ok w f p n -> (forall i, i < n -> g i = Some (x i)) ->
  exists w', ainit_run f ai p n w = Ok tt w' /\ (forall i, i < n -> slot (w_mem w') f p i = x i) /\
    w_log w' = w_log w ++ concat (map pre (upto n)) /\
    (forall y, y < p \/ p + n * f_size f <= y -> w_mem w' y = w_mem w y) /\ w_blocks w' = w_blocks w.
Proof.
  intros f ai g pre p n w x Hf Hp Hg (S0 & S1 & S2) Hx.
  assert (Ha : aok f ai) by (destruct Hp as [[-> _]|[[-> _]|[-> _]]]; exact Hg).
  assert (Hs0 : asrc (w_blocks w) (w_mem w) p (n * f_size f) f ai) by (destruct Hp as [[-> _]|[[-> _]|[-> _]]]; exact I).
  pose proof (ainit_run_ok f ai p n w _ Hf Ha S0 S1 S2 Hs0 (fun b Hb => Hb)) as H.
  assert (E : arun f n ai = (concat (map pre (upto n)), Some (map x (upto n)))).
  { destruct Hp as [[-> ->]|[[-> ->]|[-> ->]]]; cbn [arun]; now rewrite (gen_upto_ok _ g x n Hx). }
  rewrite E in H. destruct H as (w' & E1 & U & Hr & Hl & He). cbn [fst] in U. exists w'. split; [exact E1|]. split.
  - intros i Hi. rewrite (slots_read f p n _ _ He Hl Hr i [] Hi). now apply nth_map_upto.
  - split; [apply U|]. split; [apply U|]. rewrite (upd_blocks _ _ _ _ _ _ U). apply without_nil.
Qed.
(** If item [k] is the first that cannot be produced (the closure panics, the iterator has ended), the
    run panics after producing items 0..k, and nothing outside the slots changed. *)
Theorem C34_producers_panic : forall f ai g pre p n k w,
  fty_ok f -> producer ai g pre -> gen_ok f g -> slots_ok w f p n ->
  k < n -> (forall i, i < k -> g i <> None) -> g k = None ->
  exists w', ainit_run f ai p n w = Panic w' /\ w_log w' = w_log w ++ concat (map pre (upto (k + 1))) /\
    (forall y, y < p \/ p + n * f_size f <= y -> w_mem w' y = w_mem w y) /\ w_blocks w' = w_blocks w.
Proof.
  intros f ai g pre p n k w Hf Hp Hg (S0 & S1 & S2) Hk Hlt Hfail.
  assert (Ha : aok f ai) by (destruct Hp as [[-> _]|[[-> _]|[-> _]]]; exact Hg).
  assert (Hs0 : asrc (w_blocks w) (w_mem w) p (n * f_size f) f ai) by (destruct Hp as [[-> _]|[[-> _]|[-> _]]]; exact I).
  pose proof (ainit_run_ok f ai p n w _ Hf Ha S0 S1 S2 Hs0 (fun b Hb => Hb)) as H.
  assert (E : arun f n ai = (concat (map pre (upto (k + 1))), None)).
  { destruct Hp as [[-> ->]|[[-> ->]|[-> ->]]]; cbn [arun]; now rewrite (gen_upto_fail _ g k n Hk Hlt Hfail). }
  rewrite E in H. destruct H as (w' & E1 & U). cbn [fst] in U. exists w'. split; [exact E1|]. split; [apply U|]. split; [apply U|].
  rewrite (upd_blocks _ _ _ _ _ _ U). apply without_nil.
Qed.
(** CopyFrom and MoveFrom with a source of the right length: slot i holds source element i, nothing
    is cloned or dropped. *)
Theorem C34_copy_move_fill : forall f ai vs p w,
  fty_ok f -> (ai = ACopyFrom vs \/ ai = AMoveFrom vs) -> aok f ai -> slots_ok w f p (len vs) ->
  exists w', ainit_run f ai p (len vs) w = Ok tt w' /\
    (forall i v, nth_error vs (N.to_nat i) = Some v -> slot (w_mem w') f p i = v) /\
    w_log w' = w_log w /\
    (forall y, y < p \/ p + len vs * f_size f <= y -> w_mem w' y = w_mem w y) /\ w_blocks w' = w_blocks w.
Proof.
  intros f ai vs p w Hf Hai Ha (S0 & S1 & S2).
  assert (Hs0 : asrc (w_blocks w) (w_mem w) p (len vs * f_size f) f ai) by (destruct Hai as [-> | ->]; exact I).
  pose proof (ainit_run_ok f ai p (len vs) w _ Hf Ha S0 S1 S2 Hs0 (fun b Hb => Hb)) as H.
  assert (E : arun f (len vs) ai = ([], Some vs)) by (destruct Hai as [-> | ->]; cbn [arun]; now rewrite N.eqb_refl).
  rewrite E in H. destruct H as (w' & E1 & U & Hr & Hl & He). cbn [fst] in U. exists w'. split; [exact E1|]. split.
  - intros i v Hi. unfold slot. eapply arr_elem; eauto.
  - split; [rewrite (upd_log_eq _ _ _ _ _ _ U); apply app_nil_r|]. split; [apply U|]. rewrite (upd_blocks _ _ _ _ _ _ U). apply without_nil.
Qed.
(** CloneFrom with a source of the right length: every element is cloned once, in order; slot i holds
    the clone of element i. The first clone that panics stops it. *)
Theorem C34_clone_fill : forall f vs p w,
  fty_ok f -> elems_ok f vs -> slots_ok w f p (len vs) ->
  match clone_all f vs with
  | Some ys => exists w', ainit_run f (ACloneFrom vs) p (len vs) w = Ok tt w' /\
      (forall i v, nth_error vs (N.to_nat i) = Some v -> f_clone f v = Some (slot (w_mem w') f p i)) /\
      w_log w' = w_log w ++ map EClone vs /\
      (forall y, y < p \/ p + len vs * f_size f <= y -> w_mem w' y = w_mem w y) /\ w_blocks w' = w_blocks w
  | None => exists w' k, ainit_run f (ACloneFrom vs) p (len vs) w = Panic w' /\
      (k < length vs)%nat /\ first_none (map (f_clone f) vs) k /\ w_log w' = w_log w ++ map EClone (firstn (S k) vs) /\
      (forall y, y < p \/ p + len vs * f_size f <= y -> w_mem w' y = w_mem w y) /\ w_blocks w' = w_blocks w
  end.
Proof.
  intros f vs p w Hf Ha (S0 & S1 & S2). pose proof (ainit_run_ok f (ACloneFrom vs) p (len vs) w (w_blocks w) Hf Ha S0 S1 S2 I (fun b Hb => Hb)) as H.
  cbn [arun] in H. rewrite N.eqb_refl in H.
  assert (G : forall l, match clone_all f l with
    | Some ys => gen_run (map (fun v => ([EClone v], f_clone f v)) l) = (map EClone l, Some ys) /\
        forall i v, nth_error l i = Some v -> f_clone f v = nth_error ys i
    | None => exists k, (k < length l)%nat /\ first_none (map (f_clone f) l) k /\
        gen_run (map (fun v => ([EClone v], f_clone f v)) l) = (map EClone (firstn (S k) l), None) end).
  { induction l as [|v l IH]; cbn [clone_all map gen_run]; [split; [reflexivity|intros [|i] v Hv; discriminate]|].
    destruct (f_clone f v) as [v'|] eqn:Ev; [|exists 0%nat; split; [cbn; lia|]; split; [split; [cbn; congruence|intros j Hj; lia]|reflexivity]].
    destruct (clone_all f l) as [ys|]; cbn [option_map].
    - destruct IH as [-> IH]. split; [reflexivity|]. intros [|i] u Hu; cbn in *; [congruence|auto].
    - destruct IH as (k & Hk & (Hn & Hfn) & ->). exists (S k). split; [cbn; lia|]. split; [|reflexivity].
      split; [exact Hn|]. intros [|j] Hj; cbn [map nth_error]; [exists v'; reflexivity || (f_equal; exact Ev)|apply Hfn; lia]. }
  specialize (G vs). destruct (clone_all f vs) as [ys|].
  - destruct G as [G1 G2]. rewrite G1 in H. destruct H as (w' & E1 & U & Hr & Hl & He). cbn [fst] in U. exists w'. split; [exact E1|]. split.
    + intros i v Hi. rewrite (G2 _ _ Hi). pose proof (nth_error_Some_len _ _ _ Hi) as Hlt.
      rewrite (slots_read f p (len vs) ys _ He Hl Hr i [] Hlt). apply nth_error_nth'. unfold len in *. lia.
    + split; [apply U|]. split; [apply U|]. rewrite (upd_blocks _ _ _ _ _ _ U). apply without_nil.
  - destruct G as (k & Hk & Hn & G). rewrite G in H. destruct H as (w' & E1 & U). cbn [fst] in U. exists w', k. split; [exact E1|].
    split; [exact Hk|]. split; [exact Hn|]. split; [apply U|]. split; [apply U|]. rewrite (upd_blocks _ _ _ _ _ _ U). apply without_nil.
Qed.
(** CopyFrom, CloneFrom, MoveFrom with a source of another length: a panic, nothing is written or
    cloned; MoveFrom drops its elements, each once. *)
Theorem C34_length_mismatch : forall f ai vs p n w,
  (ai = ACopyFrom vs \/ ai = ACloneFrom vs \/ ai = AMoveFrom vs) -> len vs <> n ->
  exists w', ainit_run f ai p n w = Panic w' /\ (forall y, w_mem w' y = w_mem w y) /\ w_blocks w' = w_blocks w /\
    w_log w' = w_log w ++ match ai with AMoveFrom _ => if f_drop f then map EDrop vs else [] | _ => [] end.
Proof.
  intros f ai vs p n w Hai Hne. apply N.eqb_neq in Hne. destruct Hai as [-> | [-> | ->]]; cbn [ainit_run]; rewrite Hne.
  - exists w. rewrite app_nil_r. repeat split.
  - exists w. rewrite app_nil_r. repeat split.
  - rewrite (bind_ok _ _ _ _ _ (drop_values_ok f vs w)). eexists. split; [reflexivity|]. repeat split.
Qed.
(** A user's own implementation of ArrayInitializer that keeps the contract of the trait (it returns
    only if it has written every slot): when it stays within the slice and returns, every slot holds
    the value that was written to it last; otherwise the run panics. Nothing outside the slots
    changes. *)
Theorem C34_user_defined : forall f ws fin p n w,
  fty_ok f -> (forall n i v, In (i, v) (ws n) -> len v = f_size f) ->
  (forall n i, fin n = true -> i < n -> exists v, In (i, v) (ws n)) -> slots_ok w f p n ->
  exists w', (forall y, y < p \/ p + n * f_size f <= y -> w_mem w' y = w_mem w y) /\ w_blocks w' = w_blocks w /\ w_log w' = w_log w /\
    (((forall i v, In (i, v) (ws n) -> i < n) /\ fin n = true ->
        ainit_run f (AUser ws fin) p n w = Ok tt w' /\
        forall i l1 v l2, i < n -> ws n = l1 ++ (i, v) :: l2 -> (forall u, ~ In (i, u) l2) -> slot (w_mem w') f p i = v) /\
     (~ ((forall i v, In (i, v) (ws n) -> i < n) /\ fin n = true) ->
        ainit_run f (AUser ws fin) p n w = Panic w')).
Proof.
  intros f ws fin p n w Hf Hv Hall (S0 & S1 & S2).
  pose proof (ainit_run_ok f (AUser ws fin) p n w (w_blocks w) Hf (conj Hv Hall) S0 S1 S2 I (fun b Hb => Hb)) as H. cbn [arun] in H. unfold arr_res in H. cbn [fst snd] in H.
  assert (Hr : forallb (fun q => fst q <? n) (ws n) = true <-> (forall i v, In (i, v) (ws n) -> i < n)).
  { rewrite forallb_forall. split; [intros G i v Hin; apply N.ltb_lt, (G (i, v) Hin)|intros G [i v] Hin; apply N.ltb_lt; eauto]. }
  destruct (forallb (fun q => fst q <? n) (ws n) && fin n) eqn:E.
  - apply andb_prop in E. destruct E as [E1 E2]. destruct H as (w' & E & U & Hrd & Hl & He). exists w'.
    split; [apply U|]. split; [rewrite (upd_blocks _ _ _ _ _ _ U); apply without_nil|]. split; [rewrite (upd_log_eq _ _ _ _ _ _ U); apply app_nil_r|].
    split; [|intros Hn; exfalso; apply Hn; split; [now apply Hr|exact E2]].
    intros _. split; [exact E|]. intros i l1 v l2 Hi El Hn. rewrite (slots_read f p n _ _ He Hl Hrd i [] Hi), nth_map_upto by exact Hi.
    assert (Hn2 : last_write l2 i = None) by (destruct (last_write l2 i) as [u|] eqn:Eu; [destruct (Hn u); now apply last_write_in|reflexivity]).
    assert (Ew : last_write (ws n) i = Some v).
    { rewrite El. clear -Hn2. induction l1 as [|q l1 IH]; cbn [app]; rewrite last_write_cons; [rewrite Hn2; cbn [fst snd]; now rewrite N.eqb_refl|now rewrite IH]. }
    now rewrite Ew.
  - destruct H as (w' & E' & U). exists w'.
    split; [apply U|]. split; [rewrite (upd_blocks _ _ _ _ _ _ U); apply without_nil|]. split; [rewrite (upd_log_eq _ _ _ _ _ _ U); apply app_nil_r|].
    split; [|intros _; exact E']. intros [G1 G2]. apply Hr in G1. rewrite G1, G2 in E. discriminate.
Qed.
(** The example of the documentation of the trait: fills the slots from the end to the start; and one
    that writes a slot twice. *)
Definition w_backwards (n : N) : list (N * list cell) := rev (map (fun i => (i, by_ [n - i; 0])) (upto n)).
Example C34_user_meets :
  (forall n i v, In (i, v) (w_backwards n) -> len v = f_size f_u16) /\
  (forall n i, true = true -> i < n -> exists v, In (i, v) (w_backwards n)) /\ slots_ok (w_room 64) f_u16 4096 4 /\
  match ainit_run f_u16 (AUser w_backwards (fun _ => true)) 4096 4 (w_room 64) with
  | Ok _ w' => map (slot (w_mem w') f_u16 4096) (upto 4) = [by_ [4; 0]; by_ [3; 0]; by_ [2; 0]; by_ [1; 0]]
  | _ => False
  end /\
  match ainit_run f_u16 (AUser (fun _ => [(1, by_ [7; 0]); (0, by_ [8; 0]); (1, by_ [9; 0])]) (fun _ => true)) 4096 2 (w_room 64) with
  | Ok _ w' => map (slot (w_mem w') f_u16 4096) (upto 2) = [by_ [8; 0]; by_ [9; 0]]
  | _ => False
  end.
Proof.
  split; [intros n i v H; apply in_rev, in_map_iff in H; destruct H as (j & E & _); injection E as _ <-; reflexivity|].
  split; [intros n i _ Hi; exists (by_ [n - i; 0]); apply -> in_rev; apply in_map_iff; exists i; split; [reflexivity|now apply in_upto]|].
  split; [unfold slots_ok; conc; right; eexists; split; [left; reflexivity|]; conc|].
  split; vm_compute; reflexivity.
Qed.
(** new_array returns exactly what the initializer put into the slots; it panics exactly when the
    initializer does, with the same effects. (A slice that is copied or cloned from must be live and
    apart from the slots, as for every reference.) *)
Theorem C34_new_array : forall f ai n p w,
  fty_ok f -> aok f ai -> slots_ok w f p n -> asrc (w_blocks w) (w_mem w) p (n * f_size f) f ai ->
  match ainit_run f ai p n w with
  | Ok _ w' => new_array f n ai p w = Ok (map (slot (w_mem w') f p) (upto n)) w'
  | Panic w' => new_array f n ai p w = Panic w'
  | UB _ => False
  end.
Proof.
  intros f ai n p w Hf Ha (S0 & S1 & S2) Hs0. pose proof (ainit_run_ok f ai p n w _ Hf Ha S0 S1 S2 Hs0 (fun b Hb => Hb)) as H. unfold arr_res in H. unfold new_array.
  destruct (snd (arun f n ai)) as [xs|].
  - destruct H as (w' & E & U & Hr & Hl & He). rewrite E. step E.
    pose proof (upd_blocks _ _ _ _ _ _ U) as Ub. rewrite without_nil in Ub.
    rewrite (mapM_read _ (slot (w_mem w') f p)); [reflexivity|]. intros i Hi. apply load_ok.
    + lia.
    + destruct Hf as (F1 & F2 & _). pose proof (pow2_pos _ F1). rewrite N.add_mod, S1 by lia. rewrite N.mul_mod, F2, N.mul_0_r, N.mod_0_l by lia. reflexivity.
    + rewrite Ub. unfold upto in Hi. apply in_map_iff in Hi. destruct Hi as (k & <- & Hk). apply in_seq in Hk. eapply live_sub; [exact S2|]. nia.
  - destruct H as (w' & E & U). rewrite E. apply bind_panic. exact E.
Qed.
Example C34_meets :
  fty_ok f_u16 /\ producer (AFillSeq (fun i => Some (by_ [i; 0]))) (fun i => Some (by_ [i; 0])) (fun i => [ECall i]) /\
  gen_ok f_u16 (fun i => Some (by_ [i; 0])) /\ slots_ok (w_room 64) f_u16 4096 4 /\
  fty_ok f_bomb /\ elems_ok f_bomb [h1; h2] /\ slots_ok (w_room 64) f_bomb 4096 (len [h1; h2]) /\ clone_all f_bomb [h1; h2] = None.
Proof.
  split; [apply u16_ok|]. split; [left; split; reflexivity|]. split; [intros i v H; injection H as <-; reflexivity|].
  split; [unfold slots_ok; conc; right; eexists; split; [left; reflexivity|]; conc|].
  split; [apply bomb_ok|]. split; [conc|]. split; [|reflexivity]. unfold slots_ok; conc; right; eexists; split; [left; reflexivity|]; conc.
Qed.

(** ** C58 (one array) *)
(** CopyFrom and CloneFrom of a slice that is in memory: [k] elements at [a]. [g] is ghost (the functions
    do not look at it, so the theorems hold for every [g]). *)
Definition apart_slices (f : fty) (a k p n : N) : Prop := a + k * f_size f <= p \/ p + n * f_size f <= a.
Lemma slot_len m f p i : len (slot m f p i) = f_size f.
Proof. apply len_rd. Qed.
Lemma slots_concat m f a k : concat (map (slot m f a) (upto k)) = rd m a (k * f_size f).
Proof.
  induction k as [|k IH] using N.peano_ind; [reflexivity|]. rewrite <- N.add_1_r, upto_snoc, map_app, concat_app, IH. cbn [map concat].
  rewrite app_nil_r. unfold slot. rewrite N.mul_add_distr_r, N.mul_1_l. symmetry. apply rd_app.
Qed.
Lemma slots_elems m f a l : elems_ok f (map (slot m f a) l).
Proof. induction l; constructor; auto. apply slot_len. Qed.
Lemma slice_asrc f w a k p n : fty_ok f -> slots_ok w f a k -> a + k * f_size f < W -> k < W -> apart_slices f a k p n ->
  src_ok (w_blocks w) (w_mem w) (tslice f k) a (VRec [VArr (map (slot (w_mem w) f a) (upto k))]) /\
  apart a (vsize (tslice f k) (VRec [VArr (map (slot (w_mem w) f a) (upto k))])) p (n * f_size f).
Proof.
  intros Hf (A0 & A1 & A2) HW Hk Hap.
  destruct (slice_src_ok f k a (w_blocks w) (w_mem w) (map (slot (w_mem w) f a) (upto k))) as [S1 S2]; auto.
  - apply slots_elems.
  - now rewrite len_map, len_upto.
  - symmetry. apply slots_concat.
  - split; [exact S1|]. rewrite S2. right; right. exact Hap.
Qed.
(** Copying [n] elements from a slice of [n] elements: slot i of the destination has what slot i of the
    source has, the source (like everything outside the destination) is as before, nothing is cloned or
    dropped. *)
Theorem C58_copy_slice : forall f a p n g w,
  fty_ok f -> f_drop f = false -> slots_ok w f a n -> slots_ok w f p n -> a + n * f_size f < W -> n < W -> apart_slices f a n p n ->
  exists w', ainit_run f (ACopyAt a n g) p n w = Ok tt w' /\
    (forall i, i < n -> slot (w_mem w') f p i = slot (w_mem w) f a i) /\
    (forall i, i < n -> slot (w_mem w') f a i = slot (w_mem w) f a i) /\
    w_log w' = w_log w /\
    (forall y, y < p \/ p + n * f_size f <= y -> w_mem w' y = w_mem w y) /\ w_blocks w' = w_blocks w.
Proof.
  intros f a p n g w Hf Hd Ha (S0 & S1 & S2) HW Hn Hap.
  change (ainit_run f (ACopyAt a n g) p n w) with (ainit_run f (ACopyAt a n (map (slot (w_mem w) f a) (upto n))) p n w).
  pose proof (ainit_run_ok f (ACopyAt a n (map (slot (w_mem w) f a) (upto n))) p n w (w_blocks w) Hf) as H.
  specialize (H ltac:(cbn [aok]; repeat split; auto; [apply slots_elems|now rewrite len_map, len_upto]) S0 S1 S2).
  specialize (H (slice_asrc f w a n p n Hf Ha HW Hn Hap) (fun b Hb => Hb)). unfold arr_res in H. cbn [arun fst snd] in H.
  rewrite len_map, len_upto, N.eqb_refl in H. destruct H as (w' & E & U & Hr & Hl & He). exists w'. split; [exact E|].
  assert (Ho : forall y, y < p \/ p + n * f_size f <= y -> w_mem w' y = w_mem w y) by apply U.
  split; [intros i Hi; rewrite (slots_read f p n _ _ He Hl Hr i [] Hi); now apply nth_map_upto|].
  split; [intros i Hi; unfold slot; apply rd_ext; intros y Hy; apply Ho; destruct Hap; [left|right]; nia|].
  split; [rewrite (upd_log_eq _ _ _ _ _ _ U); apply app_nil_r|]. split; [exact Ho|]. rewrite (upd_blocks _ _ _ _ _ _ U). apply without_nil.
Qed.
(** Cloning: every element of the source is cloned once, in order; slot i holds the clone of source slot
    i. The clone that panics (source element [j] is the first that does) stops it. *)
Theorem C58_clone_slice : forall f a p n g w,
  fty_ok f -> slots_ok w f a n -> slots_ok w f p n -> a + n * f_size f < W -> n < W -> apart_slices f a n p n ->
  ((forall i, i < n -> f_clone f (slot (w_mem w) f a i) <> None) ->
   exists w', ainit_run f (ACloneAt a n g) p n w = Ok tt w' /\
    (forall i, i < n -> Some (slot (w_mem w') f p i) = f_clone f (slot (w_mem w) f a i)) /\
    (forall i, i < n -> slot (w_mem w') f a i = slot (w_mem w) f a i) /\
    w_log w' = w_log w ++ map (fun i => EClone (slot (w_mem w) f a i)) (upto n) /\
    (forall y, y < p \/ p + n * f_size f <= y -> w_mem w' y = w_mem w y) /\ w_blocks w' = w_blocks w) /\
  (forall j, j < n -> (forall i, i < j -> f_clone f (slot (w_mem w) f a i) <> None) -> f_clone f (slot (w_mem w) f a j) = None ->
   exists w', ainit_run f (ACloneAt a n g) p n w = Panic w' /\
    (forall i, i < n -> slot (w_mem w') f a i = slot (w_mem w) f a i) /\
    w_log w' = w_log w ++ map (fun i => EClone (slot (w_mem w) f a i)) (upto (j + 1)) /\
    (forall y, y < p \/ p + n * f_size f <= y -> w_mem w' y = w_mem w y) /\ w_blocks w' = w_blocks w).
Proof.
  intros f a p n g w Hf Ha (S0 & S1 & S2) HW Hn Hap.
  change (ainit_run f (ACloneAt a n g) p n w) with (ainit_run f (ACloneAt a n (map (slot (w_mem w) f a) (upto n))) p n w).
  pose proof (ainit_run_ok f (ACloneAt a n (map (slot (w_mem w) f a) (upto n))) p n w (w_blocks w) Hf) as H.
  specialize (H ltac:(cbn [aok]; repeat split; auto; [apply slots_elems|now rewrite len_map, len_upto]) S0 S1 S2).
  specialize (H (slice_asrc f w a n p n Hf Ha HW Hn Hap) (fun b Hb => Hb)). unfold arr_res in H. cbn [arun fst snd] in H.
  rewrite len_map, len_upto, N.eqb_refl, map_map in H.
  assert (Ec : forall l, concat (map (fun i => [EClone (slot (w_mem w) f a i)]) l) = map (fun i => EClone (slot (w_mem w) f a i)) l)
    by (induction l; cbn; congruence).
  assert (Hsrc : forall w', (forall y, y < p \/ p + n * f_size f <= y -> w_mem w' y = w_mem w y) ->
    forall i, i < n -> slot (w_mem w') f a i = slot (w_mem w) f a i).
  { intros w' Ho i Hi. unfold slot. apply rd_ext. intros y Hy. apply Ho. destruct Hap; [left|right]; nia. }
  split.
  - intros Hcl. set (x := fun i => match f_clone f (slot (w_mem w) f a i) with Some v => v | None => [] end).
    assert (Hx : forall i, i < n -> f_clone f (slot (w_mem w) f a i) = Some (x i)).
    { intros i Hi. specialize (Hcl i Hi). unfold x. destruct (f_clone f (slot (w_mem w) f a i)); congruence. }
    rewrite (gen_upto_ok (fun i => [EClone (slot (w_mem w) f a i)]) (fun i => f_clone f (slot (w_mem w) f a i)) x n Hx) in H. cbn [fst snd] in H.
    destruct H as (w' & E & U & Hr & Hl & He). exists w'. split; [exact E|].
    assert (Ho : forall y, y < p \/ p + n * f_size f <= y -> w_mem w' y = w_mem w y) by apply U.
    split; [intros i Hi; rewrite (slots_read f p n _ _ He Hl Hr i [] Hi), nth_map_upto by exact Hi; symmetry; auto|].
    split; [auto|]. split; [rewrite <- Ec; apply U|]. split; [exact Ho|]. rewrite (upd_blocks _ _ _ _ _ _ U). apply without_nil.
  - intros j Hj Hlt Hn0. rewrite (gen_upto_fail (fun i => [EClone (slot (w_mem w) f a i)]) (fun i => f_clone f (slot (w_mem w) f a i)) j n Hj Hlt Hn0) in H.
    cbn [fst snd] in H. destruct H as (w' & E & U). exists w'. split; [exact E|].
    assert (Ho : forall y, y < p \/ p + n * f_size f <= y -> w_mem w' y = w_mem w y) by apply U.
    split; [auto|]. split; [rewrite <- Ec; apply U|]. split; [exact Ho|]. rewrite (upd_blocks _ _ _ _ _ _ U). apply without_nil.
Qed.
(** A slice of another length: a panic, and nothing at all happens. *)
Theorem C58_slice_mismatch : forall f a p k n g w ai,
  (ai = ACopyAt a k g \/ ai = ACloneAt a k g) -> k <> n -> ainit_run f ai p n w = Panic w.
Proof. intros f a p k n g w ai H Hne. apply N.eqb_neq in Hne. destruct H as [-> | ->]; cbn [ainit_run]; now rewrite Hne. Qed.
Example C58_slice_meets :
  fty_ok f_u16 /\ f_drop f_u16 = false /\ slots_ok (w_room 64) f_u16 4096 4 /\ slots_ok (w_room 64) f_u16 4104 4 /\
  apart_slices f_u16 4096 4 4104 4 /\
  (forall i, i < 4 -> f_clone f_u16 (slot (w_mem (w_room 64)) f_u16 4096 i) <> None) /\
  slots_ok (w_room 64) f_bomb 4096 2 /\ slots_ok (w_room 64) f_bomb 4128 2 /\ apart_slices f_bomb 4096 2 4128 2.
Proof.
  split; [apply u16_ok|]. split; [reflexivity|].
  split; [unfold slots_ok; conc; right; eexists; split; [left; reflexivity|]; conc|].
  split; [unfold slots_ok; conc; right; eexists; split; [left; reflexivity|]; conc|].
  split; [unfold apart_slices; left; conc|]. split; [intros i _; discriminate|].
  split; [unfold slots_ok; conc; right; eexists; split; [left; reflexivity|]; conc|].
  split; [unfold slots_ok; conc; right; eexists; split; [left; reflexivity|]; conc|]. left; conc.
Qed.

(** ** C32 *)
(** try_copy / try_clone_from_slice give None exactly when the length does not fit. *)
Theorem C32_refused_iff_too_long : forall k src,
  (array_try_copy k src = None <-> 2 ^ (8 * len_size k) <= len src) /\
  (array_try_clone k src = None <-> 2 ^ (8 * len_size k) <= len src).
Proof.
  intros k src. unfold array_try_copy, array_try_clone, from_usize.
  assert (E : len_lim k = 2 ^ (8 * len_size k)) by (destruct k; vm_compute; reflexivity). rewrite <- E.
  destruct (N.ltb_spec (len src) (len_lim k)); split; split; intros H1; try discriminate; try lia; reflexivity.
Qed.
Theorem C32_str_refused_iff_too_long : forall k s, str_try_copy k s = None <-> 2 ^ (8 * len_size k) <= len s.
Proof.
  intros k s. unfold str_try_copy. pose proof (proj1 (C32_refused_iff_too_long k (map (fun b => [By b]) s))) as H.
  replace (len (map (fun b => [By b]) s)) with (len s) in H by (unfold len; now rewrite map_length).
  rewrite <- H. destruct (array_try_copy k _); split; congruence.
Qed.
(** The usize versions never panic: a slice has fewer than 2^64 elements. *)
Theorem C32_usize_always_fits : forall src s w, len src < 2 ^ 64 -> len s < 2 ^ 64 ->
  array_copy src w = Ok (ISized (len src) (ACopyFrom src)) w /\
  array_clone_from_slice src w = Ok (ISized (len src) (ACloneFrom src)) w /\
  str_copy s w = Ok (INew (ISized (len s) (ACopyFrom (map (fun b => [By b]) s)))) w.
Proof.
  intros src s w H1 H2. unfold array_copy, array_clone_from_slice, str_copy, str_try_copy, array_try_copy, array_try_clone, from_usize.
  rewrite len_map. change (len_lim LUsize) with (2 ^ 64). apply N.ltb_lt in H1, H2. now rewrite H1, H2.
Qed.
(** The array that is built reports exactly the source length, both as usize and as Len. *)
Theorem C32_length_kept : forall f k src i w dst l,
  fty_ok f -> elems_ok f src ->
  ((array_try_copy k src = Some i /\ f_drop f = false) \/ (array_try_clone k src = Some i /\ clone_all f src <> None)) ->
  init_layout (TArray f k) i w = Ok (Some l) w -> place_ok (w_blocks w) (TArray f k) dst (lay_size l) ->
  exists w', initialize (TArray f k) i dst l w = Ok tt w' /\
    array_len f k dst w' = Ok (len src) w' /\ array_len_short k dst w' = Ok (len src) w' /\
    exists xs, view (TArray f k) dst w' = Ok (VArr xs) w' /\ len xs = len src.
Proof.
  intros f k src i w dst l Hf He Hi Hl Hp. pose (t := TArray f k).
  assert (Hn : len src < len_lim k /\ exists ai, i = ISized (len src) ai /\ (aok f ai /\ (ai = ACopyFrom src \/ ai = ACloneFrom src)) /\ exists xs, snd (arun f (len src) ai) = Some xs).
  { unfold array_try_copy, array_try_clone, from_usize in Hi. destruct (N.ltb_spec (len src) (len_lim k)) as [H|H].
    - split; [exact H|]. destruct Hi as [[E Hd]|[E Hc]]; injection E as <-; eexists; (split; [reflexivity|]); (split; [split; [first [split; assumption|assumption]|auto]|]); cbn [arun]; rewrite N.eqb_refl; [eexists; reflexivity|].
      clear -Hc. assert (G : forall l, clone_all f l <> None -> exists xs, snd (gen_run (map (fun v => ([EClone v], f_clone f v)) l)) = Some xs).
      { induction l as [|v l IH]; cbn [clone_all map gen_run]; [eexists; reflexivity|]. destruct (f_clone f v); [|congruence].
        destruct (clone_all f l); cbn; [|congruence]. intros _. destruct (IH ltac:(congruence)) as [xs ->]. eexists; reflexivity. }
      now apply G.
    - destruct Hi as [[E _]|[E _]]; discriminate. }
  destruct Hn as (Hlim & ai & -> & (Hao & Hai) & xs & Hxs).
  assert (R : init_ready w t (ISized (len src) ai) dst (isize t (ISized (len src) ai))) by (split; [split; assumption|]; split; [constructor|destruct Hai as [-> | ->]; exact I]).
  destruct (init_layout_some t w _ dst _ l Hf R Hl) as [-> HW].
  rewrite (lay_size_ishape t _ (proj1 R)) in Hp.
  assert (Hp' : place_ok (without (w_blocks w) (ibases t (ISized (len src) ai))) t dst (isize t (ISized (len src) ai))).
  { change (ibases t (ISized (len src) ai)) with (@nil N). rewrite without_nil. exact Hp. }
  pose proof (initialize_ok t w _ dst Hf R Hp' eq_refl) as HB. unfold build_res in HB. cbn [irun t] in HB. rewrite Hxs in HB. cbn [option_map snd fst] in HB.
  destruct HB as (w' & E & U & Hr). exists w'. split; [exact E|].
  assert (Ev : ival t (ISized (len src) ai) = Some (VArr xs)) by (cbn [t ival]; now rewrite Hxs).
  assert (Ho : obj_at w' t dst (VArr xs)).
  { eapply upd_obj; [exact Hf|apply R|reflexivity|exact Ev| |exact Hr|exact Hp']. cbn [irun t fst]. exact U. }
  pose proof (arun_len _ _ _ _ Hxs) as Hlx. split; [|split; [|exists xs; split; [now apply view_ok|exact Hlx]]].
  - unfold array_len. step (calc_layout_ok t w' dst _ Hf Ho). cbn. now rewrite Hlx.
  - unfold array_len_short. pose proof Ho as (Hv & (P0 & Pm & PW & Pl) & [Hr1 _]). apply load_len_ok; auto.
    + apply (pow2_mod dst (head_align t) (sp_align t)); [apply (head_align_pow2 t Hf)|apply (sp_align_pow2 t Hf)|apply (head_align_le t Hf)|exact Pm].
    + eapply live_pre; [exact Pl|]. apply (head_size_le t (VArr xs) Hf Hv).
    + now rewrite <- Hlx.
Qed.
Example C32_meets :
  let src := [by_ [1;0]; by_ [2;0]; by_ [3;0]] in
  fty_ok f_u16 /\ elems_ok f_u16 src /\ array_try_copy LU8 src = Some (ISized 3 (ACopyFrom src)) /\ f_drop f_u16 = false /\
  init_layout (TArray f_u16 LU8) (ISized 3 (ACopyFrom src)) (w_room 64) = Ok (Some (LyArr 2 3 8)) (w_room 64) /\
  place_ok (w_blocks (w_room 64)) (TArray f_u16 LU8) 4096 8.
Proof.
  cbv zeta. split; [apply u16_ok|]. split; [conc|]. split; [reflexivity|]. split; [reflexivity|]. split; [reflexivity|].
  unfold place_ok; conc; right; eexists; split; [left; reflexivity|]; conc.
Qed.
(** 255 elements fit u8, 256 do not. *)
Example C32_boundary : (exists i, array_try_copy LU8 (repeat (by_ [0]) 255) = Some i) /\ array_try_copy LU8 (repeat (by_ [0]) 256) = None.
Proof. split; [eexists; reflexivity|reflexivity]. Qed.

(** ** C33 *)
Lemma to_bytes_val s : to_bytes (map (fun b => [By b]) s) = Some s.
Proof. induction s as [|b s IH]; [reflexivity|]. cbn. now rewrite IH. Qed.
(** A Str derefs to exactly the bytes it holds. *)
Theorem C33_deref : forall k w a s, obj_at w (TStr k) a (str_val s) -> str_deref k a w = Ok s w.
Proof.
  intros k w a s Ho. unfold str_deref. step (view_ok (TStr k) w a _ u8_ok Ho). unfold str_val. now rewrite to_bytes_val.
Qed.
(** The initializers for Str that safe code can get hold of (StrInit and the inner array are
    private): a copy of a &str, vcopy or vclone of another Str, a VBox or an Owned of one. Each of
    them stands for one byte string. *)
Inductive str_init (w : world) (k : lenk) : init -> list N -> Prop :=
| SI_copy : forall s i, str_try_copy k s = Some i -> str_init w k i s
| SI_vcopy : forall a s, obj_at w (TStr k) a (str_val s) -> str_init w k (vcopy a (str_val s)) s
| SI_vclone : forall a s i, obj_at w (TStr k) a (str_val s) -> vclone (TStr k) a w = Ok (strip i) w -> str_init w k i s
| SI_box : forall a s, box_at w (TStr k) a (str_val s) -> str_init w k (IBox a (str_val s)) s
| SI_owned : forall a s, obj_at w (TStr k) a (str_val s) -> str_init w k (IOwned a (str_val s)) s.
Lemma clone_u8 s : clone_val (TStr LU8) (str_val s) = Some (str_val s) /\ forall k, clone_val (TStr k) (str_val s) = Some (str_val s).
Proof.
  assert (G : clone_all u8 (map (fun b => [By b]) s) = Some (map (fun b => [By b]) s)) by (induction s as [|b s IH]; cbn; [reflexivity|]; cbn in IH; now rewrite IH).
  split; [|intros k]; cbn [TStr clone_val str_val]; rewrite G; reflexivity.
Qed.
Lemma str_init_ival w k i s : usable w (TStr k) i -> str_init w k i s -> ival (TStr k) i = Some (str_val s).
Proof.
  intros Hu Hs. destruct Hs as [s' i' E|a s' Ho|a s' i' Ho E|a s' Hb|a s' Ho]; try reflexivity.
  - unfold str_try_copy, array_try_copy, from_usize in E. destruct (len (map _ s') <? len_lim k); [|discriminate]. injection E as <-.
    cbn [TStr ival arun]. now rewrite N.eqb_refl.
  - destruct (vclone_ok2 (TStr k) w a _ u8_ok I Ho) as (i2 & E2 & Hi2 & (N1 & N2 & N3) & _ & Hv & _).
    rewrite E in E2. injection E2 as E2. destruct Hu as (U1 & U2 & U3).
    assert (i' = i2) as ->; [|rewrite Hv; apply clone_u8].
    assert (B0 : ibases (TStr k) i' = []) by (rewrite <- (proj1 ibases_strip), E2, (proj1 ibases_strip); unfold ibases; now rewrite N1).
    rewrite B0, without_nil in U3.
    eapply (proj1 (strip_unique w (w_blocks w) 0 0 (incl_refl _)) (TStr k)); eauto; [exact u8_ok|].
    apply N3. split; [apply Ho|]. split; [auto|]. unfold Spec.apart. auto.
Qed.
(** Whatever way a Str is built (in place, boxed, in an arena, pushed to a sequence), it derefs to
    exactly the bytes it was given; in particular it is UTF-8 if the source is. *)
Theorem C33_str_bytes : forall k w i s,
  wf_blocks (w_blocks w) -> usable w (TStr k) i -> str_init w k i s ->
  (forall dst l w', init_layout (TStr k) i w = Ok (Some l) w -> init_ready w (TStr k) i dst (lay_size l) ->
     place_ok (without (w_blocks w) (ibases (TStr k) i)) (TStr k) dst (lay_size l) ->
     initialize (TStr k) i dst l w = Ok tt w' -> str_deref k dst w' = Ok s w') /\
  (forall p w', vbox_new (TStr k) i w = Ok p w' -> str_deref k p w' = Ok s w') /\
  (forall p w', owned_new_in (TStr k) i w = Ok p w' -> str_deref k p w' = Ok s w').
Proof.
  intros k w i s Hbl Hu Hs. pose proof (str_init_ival w k i s Hu Hs) as Ev. split; [|split].
  - intros dst l w' Hl Hr Hp E. pose proof (init_layout_lens (TStr k) w i dst _ l w u8_ok Hr Hl) as Hz. destruct (init_layout_some (TStr k) w i dst _ l u8_ok Hr Hl) as [-> HW].
    rewrite (lay_size_ishape (TStr k) i (proj1 Hu)) in *.
    pose proof (initialize_ok (TStr k) w i dst u8_ok Hr Hp Hz) as HB. unfold build_res in HB. rewrite (proj1 irun_ival), Ev in HB.
    destruct HB as (w1 & E1 & U & Hrp). assert (w' = w1) as -> by congruence. apply C33_deref.
    eapply upd_obj; [exact u8_ok|apply Hu|exact Hz|exact Ev|exact U|exact Hrp|exact Hp].
  - intros p w' E. destruct (vbox_new_ok (TStr k) w i p w' u8_ok Hbl Hu E) as (v & Ev' & [Ho _] & _). rewrite Ev in Ev'. injection Ev' as <-. now apply C33_deref.
  - intros p w' E. pose proof (owned_new_in_cases (TStr k) w i u8_ok Hbl Hu) as H. rewrite E in H. destruct H as (v & Ev' & Ho & _).
    rewrite Ev in Ev'. injection Ev' as <-. now apply C33_deref.
Qed.
(** In a sequence: after any history of pushes of such initializers, the elements deref to the given
    strings, in order. *)
Theorem C33_seq_of_str : forall k chk w s is_ strs,
  hist (TStr k) chk w s is_ -> Forall2 (fun i str => ival (TStr k) i = Some (str_val str)) is_ strs ->
  exists addrs, iter_collect (TStr k) (S (N.to_nat (s_len s))) (seq_iter s) w = Ok addrs w /\
    mapM (str_deref k) addrs w = Ok strs w.
Proof.
  intros k chk w s is_ strs H HF. assert (Hwf : wf_ty (TStr k)) by exact u8_ok.
  assert (Hz : nonzst (TStr k)).
  { intros v Hv. pose proof (head_size_le (TStr k) v Hwf Hv) as E. assert (0 < head_size (TStr k)) by (destruct k; reflexivity). lia. }
  destruct (hist_inv (TStr k) chk w s is_ Hwf Hz H) as (vs & Hi & Hat & Hbl & _).
  assert (vs = map str_val strs) as ->.
  { apply (ivalues_inj (TStr k) is_); [exact Hi|]. unfold ivalues. clear -HF. induction HF as [|i x is_ strs E _ IH]; [reflexivity|]. cbn [map]. now rewrite E, IH. }
  pose proof (seq_iter_at _ _ _ _ _ Hwf Hbl Hat) as Hit. eexists. split.
  - apply (iter_collect_ok w (TStr k) (seq_iter s) (map str_val strs)); [exact Hwf|exact Hit|].
    assert (Hl : s_len s = len (map str_val strs)) by apply Hat. rewrite Hl. unfold len; lia.
  - destruct Hit as (_ & _ & Hob). revert Hob. generalize (it_ptr (seq_iter s)). clear -Hwf. induction strs as [|x strs IH]; intros p Hob; [reflexivity|].
    cbn [map] in *. rewrite addrs_cons. cbn [mapM]. destruct Hob as [H1 H2]. step (C33_deref k w p x H1). step (IH _ H2). reflexivity.
Qed.
(** "é" and "h" in a Str<u8>. *)
Example C33_meets : exists i, str_try_copy LU8 [195; 169; 104] = Some i /\ str_init w_start LU8 i [195; 169; 104] /\
  usable w_start (TStr LU8) i /\ utf8 [195; 169; 104] /\
  match vbox_new (TStr LU8) i w_start with Ok p _ => p = 4096 | _ => False end.
Proof.
  eexists. split; [reflexivity|]. split; [now apply SI_copy|]. split; [split; [|split]; cbn; conc|]. split; [|vm_compute; reflexivity].
  apply U_2; [lia|unfold cont; lia|]. apply U_1; [lia|constructor].
Qed.
