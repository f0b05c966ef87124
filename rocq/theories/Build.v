(** Build.v - running initializers: exact effects, the value built, what is dropped on panic. *)
From Verif Require Export InitLayout.

(** ** small helpers on [upd] *)
Lemma without_ext bl b1 b2 : (forall x, In x b1 <-> In x b2) -> without bl b1 = without bl b2.
Proof.
  intros H. unfold without. apply filter_ext. intros b. f_equal.
  apply eq_true_iff_eq. rewrite !existsb_exists. split; intros (x & Hx & E); exists x; split; auto; now apply H.
Qed.
Lemma upd_bases w w' a n b1 b2 e : (forall x, In x b1 <-> In x b2) -> upd w w' a n b1 e -> upd w w' a n b2 e.
Proof. intros H (A1 & A2 & A3). split; auto. split; auto. rewrite A2. now apply without_ext. Qed.
Lemma upd_0 w w' a n b e : upd w w' 0 0 b e -> upd w w' a n b e.
Proof. intros (A1 & A2). split; auto. intros x Hx. apply A1. lia. Qed.
Lemma upd_mem w w' a n b e : upd w w' a n b e -> same_outside (w_mem w) (w_mem w') a n.
Proof. intros H; apply H. Qed.
Lemma upd_blocks w w' a n b e : upd w w' a n b e -> w_blocks w' = without (w_blocks w) b.
Proof. intros H; apply H. Qed.
Lemma on_unwind_ok {A} (m : M world A) c w a w' : m w = Ok a w' -> on_unwind m c w = Ok a w'.
Proof. intros H. unfold on_unwind. now rewrite H. Qed.
Lemma on_unwind_panic {A} (m : M world A) c w w' w'' :
  m w = Panic w' -> c w' = Ok tt w'' -> on_unwind m c w = Panic w''.
Proof. intros H H'. unfold on_unwind. now rewrite H, H'. Qed.

(** ** array initializers *)
Lemma map_add_upto k n : map (fun i => k + i) (upto (1 + n)) = k :: map (fun i => (k + 1) + i) (upto n).
Proof.
  rewrite upto_succ. cbn [map]. f_equal; [lia|]. rewrite map_map. apply map_ext. intros; lia.
Qed.
Lemma map_add_0 l : map (fun i => 0 + i) l = l.
Proof. rewrite <- (map_id l) at 2. apply map_ext. intros; lia. Qed.

Lemma fill_loop_run f pre g : fty_ok f -> gen_ok f g -> forall n p k N0 w,
  p <> 0 -> p mod f_align f = 0 -> live (w_blocks w) p (N0 * f_size f) -> k + N.of_nat n <= N0 ->
  let run := gen_run (map (fun i => (pre i, g i)) (map (fun i => k + i) (upto (N.of_nat n)))) in
  match snd run with
  | Some xs => exists w', for_each (fill_loop f p pre g) (map (fun i => k + i) (upto (N.of_nat n))) w = Ok tt w' /\
      upd w w' (p + k * f_size f) (N.of_nat n * f_size f) [] (fst run) /\
      rd (w_mem w') (p + k * f_size f) (N.of_nat n * f_size f) = concat xs /\
      len xs = N.of_nat n /\ elems_ok f xs
  | None => exists w', for_each (fill_loop f p pre g) (map (fun i => k + i) (upto (N.of_nat n))) w = Panic w' /\
      upd w w' (p + k * f_size f) (N.of_nat n * f_size f) [] (fst run)
  end.
Proof.
  intros Hf Hg. induction n as [|n IH]; intros p k N0 w H0 Hm Hl Hk.
  - cbn. exists w. repeat split; try constructor; try (now rewrite without_nil); now rewrite app_nil_r.
  - replace (N.of_nat (S n)) with (1 + N.of_nat n) in * by lia.
    rewrite map_add_upto. cbn [map gen_run for_each]. unfold fill_loop at 1 3.
    destruct (g k) as [v|] eqn:Eg.
    + assert (Hv : len v = f_size f) by (eapply Hg; eauto).
      destruct (elem_place f p N0 (w_blocks w) k Hf H0 Hm Hl ltac:(lia)) as (B1 & B2 & B3).
      set (w1 := add_log w (pre k)). set (w2 := set_mem w1 (wr (w_mem w1) (p + k * f_size f) v)).
      assert (E1 : (for_each emit (pre k);;; store (p + k * f_size f) (f_align f) v) w = Ok tt w2).
      { step (emit_all (pre k) w). fold w1. rewrite store_ok; auto. now rewrite Hv. }
      assert (U : upd w w2 (p + k * f_size f) ((1 + N.of_nat n) * f_size f) [] (pre k)).
      { replace (pre k) with (pre k ++ []) by apply app_nil_r. change (@nil N) with (@nil N ++ []).
        eapply upd_trans; [apply upd_log|]. eapply upd_widen; [apply upd_store|lia|]. rewrite Hv. nia. }
      specialize (IH p (k + 1) N0 w2 H0 Hm Hl ltac:(lia)). cbv zeta in *. cbn [fst snd].
      set (run := gen_run (map (fun i => (pre i, g i)) (map (fun i => k + 1 + i) (upto (N.of_nat n))))) in *.
      destruct (snd run) as [xs|]; cbn [option_map].
      * destruct IH as (w' & E2 & U2 & R2 & L2 & F2). exists w'. split; [step E1; exact E2|].
        split; [change (@nil N) with (@nil N ++ []); eapply upd_trans; [exact U|];
                eapply upd_widen; [exact U2|nia|nia]|].
        split; [|split; [rewrite len_cons; lia|constructor; auto]].
        cbn [concat]. replace ((1 + N.of_nat n) * f_size f) with (f_size f + N.of_nat n * f_size f) by lia.
        rewrite rd_app. f_equal.
        -- pose proof (rd_wr_same (w_mem w1) (p + k * f_size f) v) as Es. rewrite Hv in Es.
           etransitivity; [|exact Es]. apply rd_ext. intros x Hx. destruct U2 as (U2 & _). rewrite U2; [reflexivity|]. nia.
        -- replace (p + k * f_size f + f_size f) with (p + (k + 1) * f_size f) by lia. exact R2.
      * destruct IH as (w' & E2 & U2). exists w'. split; [step E1; exact E2|].
        change (@nil N) with (@nil N ++ []); eapply upd_trans; [exact U|]. eapply upd_widen; [exact U2|nia|nia].
    + cbn [fst snd]. exists (add_log w (pre k)). split; [|apply upd_log].
      apply bind_panic. step (emit_all (pre k) w). reflexivity.
Qed.

Lemma gen_run_some {A} (l : list A) (h : A -> list cell) :
  gen_run (map (fun v => ([], Some (h v))) l) = ([], Some (map h l)).
Proof. induction l as [|x l IH]; [reflexivity|]. cbn [map gen_run]. rewrite IH. reflexivity. Qed.

Definition arr_res (f : fty) (p n : N) (w : world) (r : res world unit) (run : list event * option (list (list cell))) : Prop :=
  match snd run with
  | Some xs => exists w', r = Ok tt w' /\ upd w w' p (n * f_size f) [] (fst run) /\
      rd (w_mem w') p (n * f_size f) = concat xs /\ len xs = n /\ elems_ok f xs
  | None => exists w', r = Panic w' /\ upd w w' p (n * f_size f) [] (fst run)
  end.

Lemma fill_all_run f pre g n p w :
  fty_ok f -> gen_ok f g -> p <> 0 -> p mod f_align f = 0 -> live (w_blocks w) p (n * f_size f) ->
  arr_res f p n w (for_each (fill_loop f p pre g) (upto n) w) (gen_run (map (fun i => (pre i, g i)) (upto n))).
Proof.
  intros Hf Hg H0 Hm Hl.
  pose proof (fill_loop_run f pre g Hf Hg (N.to_nat n) p 0 n w H0 Hm Hl ltac:(lia)) as H.
  rewrite N2Nat.id in H. rewrite map_add_0 in H. replace (p + 0 * f_size f) with p in H by lia. exact H.
Qed.
Lemma for_each_ext {S A} (h1 h2 : A -> M S unit) l :
  (forall x, In x l -> h1 x = h2 x) -> for_each h1 l = for_each h2 l.
Proof.
  induction l as [|x l IH]; intros H; cbn [for_each]; [reflexivity|].
  rewrite (H x (or_introl eq_refl)), IH; [reflexivity|]. intros; apply H; right; auto.
Qed.
Definition guard (vs : list (list cell)) (g : list cell -> option (list cell)) (i : N) : option (list cell) :=
  if i <? len vs then g (nth (N.to_nat i) vs []) else None.
Lemma guard_loop f p pre vs g :
  for_each (fill_loop f p pre (fun i => g (nth (N.to_nat i) vs []))) (upto (len vs)) =
  for_each (fill_loop f p pre (guard vs g)) (upto (len vs)).
Proof.
  apply for_each_ext. intros i Hi. apply in_upto in Hi. unfold fill_loop, guard.
  destruct (N.ltb_spec i (len vs)); [reflexivity|lia].
Qed.
Lemma guard_map (vs : list (list cell)) (e : list cell -> list event) (g : list cell -> option (list cell)) :
  map (fun i => (e (nth (N.to_nat i) vs []), guard vs g i)) (upto (len vs)) = map (fun v => (e v, g v)) vs.
Proof.
  rewrite <- (upto_nth (fun v => (e v, g v)) [] vs). apply map_ext_in. intros i Hi. apply in_upto in Hi.
  unfold guard. destruct (N.ltb_spec i (len vs)); [reflexivity|lia].
Qed.
Lemma elems_nth f vs i : elems_ok f vs -> i < len vs -> len (nth (N.to_nat i) vs []) = f_size f.
Proof.
  intros H Hi. unfold elems_ok in H. rewrite Forall_forall in H. apply H. apply nth_In. unfold len in Hi. lia.
Qed.

Lemma upto_snoc n : upto (n + 1) = upto n ++ [n].
Proof.
  unfold upto. rewrite N2Nat.inj_add. change (N.to_nat 1) with 1%nat. rewrite seq_app, map_app. cbn [seq map]. now rewrite Nat.add_0_l, N2Nat.id.
Qed.
(** Writes to slots in any order. *)
Lemma last_write_cons q l i : last_write (q :: l) i =
  match last_write l i with Some v => Some v | None => if fst q =? i then Some (snd q) else None end.
Proof.
  unfold last_write. cbn [rev]. induction (rev l) as [|x r IH]; cbn [app find option_map].
  - destruct (fst q =? i); reflexivity.
  - destruct (fst x =? i); [reflexivity|exact IH].
Qed.
Lemma last_write_in l i v : last_write l i = Some v -> In (i, v) l.
Proof.
  unfold last_write. destruct (find _ _) as [[j x]|] eqn:E; [|discriminate]. intros H. injection H as <-. apply find_some in E.
  destruct E as [E1 E2]. apply in_rev in E1. cbn in E2. apply N.eqb_eq in E2. now subst.
Qed.
Lemma last_write_some l i v : In (i, v) l -> exists u, last_write l i = Some u.
Proof.
  intros H. unfold last_write. destruct (find _ (rev l)) as [q|] eqn:E; [eexists; reflexivity|].
  exfalso. apply find_none with (x := (i, v)) in E; [cbn in E; rewrite N.eqb_refl in E; discriminate|]. now apply -> in_rev.
Qed.
Lemma user_writes f p n l : fty_ok f -> (forall i v, In (i, v) l -> len v = f_size f) -> p <> 0 -> p mod f_align f = 0 ->
  forall w, live (w_blocks w) p (n * f_size f) ->
  exists w', upd w w' p (n * f_size f) [] [] /\
    for_each (fun '(i, v) => if i <? n then store (p + i * f_size f) (f_align f) v else panic) l w =
      (if forallb (fun q => fst q <? n) l then Ok tt w' else Panic w') /\
    (forallb (fun q => fst q <? n) l = true -> forall i, i < n ->
       rd (w_mem w') (p + i * f_size f) (f_size f) =
       match last_write l i with Some v => v | None => rd (w_mem w) (p + i * f_size f) (f_size f) end).
Proof.
  intros Hf Hv H0 Hm. induction l as [|[j v] l IH]; intros w Hl.
  - exists w. split; [apply upd_refl|]. split; reflexivity.
  - cbn [for_each forallb fst]. destruct (N.ltb_spec j n) as [Hj|Hj]; cbn [andb].
    2:{ exists w. split; [apply upd_refl|]. split; [reflexivity|discriminate]. }
    destruct (elem_place f p n (w_blocks w) j Hf H0 Hm Hl Hj) as (B1 & B2 & B3).
    assert (Hlv : len v = f_size f) by (eapply Hv; left; reflexivity).
    set (w1 := set_mem w (wr (w_mem w) (p + j * f_size f) v)).
    assert (E1 : store (p + j * f_size f) (f_align f) v w = Ok tt w1) by (apply store_ok; auto; now rewrite Hlv).
    destruct (IH ltac:(intros i x Hx; eapply Hv; right; exact Hx) w1 Hl) as (w' & U & E & R).
    exists w'. split; [|split].
    + change (@nil N) with (@nil N ++ []). change (@nil event) with (@nil event ++ []). eapply upd_trans; [|exact U].
      eapply upd_widen; [apply upd_store|lia|]. rewrite Hlv. nia.
    + step E1. exact E.
    + intros Hr i Hi. rewrite (R Hr i Hi), last_write_cons. cbn [fst snd]. destruct (last_write l i); [reflexivity|].
      unfold w1. cbn [set_mem w_mem]. destruct (N.eqb_spec j i) as [->|Hne].
      * pose proof (rd_wr_same (w_mem w) (p + i * f_size f) v) as Es. now rewrite Hlv in Es.
      * apply rd_wr_out. rewrite Hlv. unfold apart. nia.
Qed.
Lemma rd_slots m f p n :
  rd m p (n * f_size f) = concat (map (fun i => rd m (p + i * f_size f) (f_size f)) (upto n)).
Proof.
  induction n as [|n IH] using N.peano_ind; [reflexivity|]. rewrite <- N.add_1_r, upto_snoc, map_app, concat_app, <- IH. cbn [map concat].
  rewrite app_nil_r, N.mul_add_distr_r, N.mul_1_l. apply rd_app.
Qed.

Lemma nth_upto_map {B} (h : N -> B) n x d : x < n -> nth (N.to_nat x) (map h (upto n)) d = h x.
Proof.
  intros H. unfold upto. rewrite map_map.
  rewrite (nth_indep _ d (h (N.of_nat 0))) by (rewrite map_length, seq_length; lia).
  rewrite (map_nth (fun x => h (N.of_nat x))). rewrite seq_nth by lia. f_equal. lia.
Qed.

(** Slices in memory. *)
Lemma bind_both {A B} (m m' : M world A) (k k' : A -> M world B) w :
  m w = m' w -> (forall u w', m' w = Ok u w' -> k u w' = k' u w') -> bind m k w = bind m' k' w.
Proof. intros E H. unfold bind. rewrite E. destruct (m' w) eqn:Em; auto. Qed.
Lemma slice_src f k a vs bl m : fty_ok f -> elems_ok f vs -> len vs = k -> src_ok bl m (tslice f k) a (VRec [VArr vs]) ->
  a <> 0 /\ a mod f_align f = 0 /\ a + k * f_size f < W /\ live bl a (k * f_size f) /\ rd m a (k * f_size f) = concat vs /\
  vsize (tslice f k) (VRec [VArr vs]) = k * f_size f.
Proof.
  intros Hf He Hk [(P0 & Pm & PW & Pl) Hr]. unfold vsize, tslice in *. cbn [vshape map sp_size sp_end sp_align sp_falign repr repr_flds] in *.
  rewrite Hk in *. assert (Hu : up 0 (f_align f) = 0) by (destruct Hf as (Hp & _); pose proof (pow2_pos _ Hp); unfold up; rewrite N.div_small by lia; reflexivity).
  rewrite Hu in *. rewrite !N.add_0_l in *. rewrite N.add_0_r in Hr. replace (N.max 1 (N.max (f_align f) 1)) with (f_align f) in Pm by (destruct Hf as (Hp & _); pose proof (pow2_pos _ Hp); lia).
  repeat split; auto; apply Hr.
Qed.
Lemma fill_same f a p vs n : fty_ok f -> elems_ok f vs -> len vs = n ->
  p <> 0 -> p mod f_align f = 0 -> a <> 0 -> a mod f_align f = 0 -> apart a (n * f_size f) p (n * f_size f) ->
  forall l w, (forall i, In i l -> i < n) -> live (w_blocks w) p (n * f_size f) -> live (w_blocks w) a (n * f_size f) ->
  rd (w_mem w) a (n * f_size f) = concat vs ->
  for_each (fun i => v <- load (a + i * f_size f) (f_size f) (f_align f) ;;
                     fill_loop f p (fun _ => [EClone v]) (fun _ => f_clone f v) i) l w =
  for_each (fill_loop f p (fun i => [EClone (nth (N.to_nat i) vs [])]) (fun i => f_clone f (nth (N.to_nat i) vs []))) l w.
Proof.
  intros Hf He Hn P0 Pm A0 Am Hap. induction l as [|i l IH]; intros w Hi Hlp Hla Hr; [reflexivity|].
  assert (Hin : i < n) by (apply Hi; left; reflexivity).
  destruct (elem_place f a n (w_blocks w) i Hf A0 Am Hla Hin) as (B1 & B2 & B3).
  destruct (elem_place f p n (w_blocks w) i Hf P0 Pm Hlp Hin) as (C1 & C2 & C3).
  assert (Ev : rd (w_mem w) (a + i * f_size f) (f_size f) = nth (N.to_nat i) vs []).
  { subst n. pattern vs at 1. rewrite <- (rd_chunks _ _ _ _ He Hr). cbv beta.
    symmetry. now apply (nth_upto_map (fun i => rd (w_mem w) (a + i * f_size f) (f_size f))). }
  set (v := nth (N.to_nat i) vs []) in *. cbn [for_each]. apply bind_both.
  - unfold bind at 1. rewrite (load_ok w _ _ _ B1 B2 B3), Ev. reflexivity.
  - intros u w' Hw. unfold fill_loop in Hw. fold v in Hw. cbn [for_each] in Hw. unfold bind, emit, ret in Hw.
    destruct (f_clone f v) as [v'|] eqn:Ec; [|discriminate].
    assert (Hl' : len v' = f_size f).
    { destruct Hf as (_ & _ & _ & Hc). eapply Hc; eauto. apply elems_nth; auto. now rewrite Hn. }
    rewrite store_ok in Hw; auto; [|rewrite Hl'; exact C3]. injection Hw as _ <-. apply IH; auto.
    + intros j Hj. apply Hi. right. exact Hj.
    + cbn [set_mem w_mem add_log]. rewrite rd_wr_out; [exact Hr|]. rewrite Hl'. clear - Hap Hin. unfold apart in *. nia.
Qed.

Lemma ainit_run_ok f ai p n w bl' :
  fty_ok f -> aok f ai -> p <> 0 -> p mod f_align f = 0 -> live (w_blocks w) p (n * f_size f) ->
  asrc bl' (w_mem w) p (n * f_size f) f ai -> (forall b, In b bl' -> In b (w_blocks w)) ->
  arr_res f p n w (ainit_run f ai p n w) (arun f n ai).
Proof.
  intros Hf Ha H0 Hm Hl Hs Hbl. destruct ai as [g|g|g|vs|vs|a k vs|a k vs|vs|ws fin]; cbn [ainit_run arun aok asrc] in *.
  - now apply fill_all_run.
  - now apply fill_all_run.
  - now apply fill_all_run.
  - unfold arr_res. destruct (N.eqb_spec (len vs) n) as [E|E]; cbn [fst snd].
    + destruct Ha as [Ha _]. pose proof (len_concat f vs Ha) as Hc. rewrite E in Hc.
      exists (set_mem w (wr (w_mem w) p (concat vs))). split; [apply store_ok; auto; now rewrite Hc|].
      split; [rewrite <- Hc; apply upd_store|]. split; [|split; auto].
      rewrite <- Hc. apply rd_wr_same.
    + exists w. split; [reflexivity|apply upd_refl].
  - destruct (N.eqb_spec (len vs) n) as [E|E].
    + subst n. rewrite (guard_loop f p _ vs (f_clone f)).
      rewrite <- (guard_map vs (fun v => [EClone v]) (f_clone f)).
      apply (fill_all_run f (fun i => [EClone (nth (N.to_nat i) vs [])])); auto.
      intros i v Hv. unfold guard in Hv. destruct (N.ltb_spec i (len vs)); [|discriminate].
      destruct Hf as (_ & _ & _ & Hc). eapply Hc; eauto. now apply elems_nth.
    + exists w. split; [reflexivity|apply upd_refl].
  - destruct Ha as (He & Hk & _). destruct Hs as [Hs Hap].
    destruct (slice_src f k a vs bl' (w_mem w) Hf He Hk Hs) as (A0 & Am & AW & Al & Ar & As). rewrite As in Hap. rewrite Hk. unfold arr_res.
    apply (fun H => live_incl _ _ _ _ H Hbl) in Al.
    destruct (N.eqb_spec k n) as [E|E]; cbn [fst snd].
    + subst n. eexists. split; [apply copy_ok; auto|]. split; [apply upd_move|]. split; [now rewrite <- Ar; apply rd_move|auto].
    + exists w. split; [reflexivity|apply upd_refl].
  - destruct Ha as (He & Hk & _). destruct Hs as [Hs Hap].
    destruct (slice_src f k a vs bl' (w_mem w) Hf He Hk Hs) as (A0 & Am & AW & Al & Ar & As). rewrite As in Hap. rewrite Hk.
    apply (fun H => live_incl _ _ _ _ H Hbl) in Al.
    destruct (N.eqb_spec k n) as [E|E].
    + subst n. rewrite (fill_same f a p vs k); auto; [|intros i Hi; now apply in_upto in Hi]. subst k. rewrite (guard_loop f p _ vs (f_clone f)).
      rewrite <- (guard_map vs (fun v => [EClone v]) (f_clone f)).
      apply (fill_all_run f (fun i => [EClone (nth (N.to_nat i) vs [])])); auto.
      intros i v Hv. unfold guard in Hv. destruct (N.ltb_spec i (len vs)); [|discriminate].
      destruct Hf as (_ & _ & _ & Hc). eapply Hc; eauto. now apply elems_nth.
    + exists w. split; [reflexivity|apply upd_refl].
  - destruct (N.eqb_spec (len vs) n) as [E|E].
    + subst n. rewrite (guard_loop f p _ vs (fun v => Some v)).
      pose proof (gen_run_some vs (fun v => v)) as G. rewrite map_id in G. rewrite <- G.
      rewrite <- (guard_map vs (fun _ => []) (fun v => Some v)).
      apply (fill_all_run f (fun i => [])); auto.
      intros i v Hv. unfold guard in Hv. destruct (N.ltb_spec i (len vs)); [|discriminate].
      injection Hv as <-. now apply elems_nth.
    + exists (add_log w (drop_events f vs)). split; [|apply upd_log].
      now step (drop_values_ok f vs w).
  - destruct Ha as [Hv Hall]. destruct (user_writes f p n (ws n) Hf (Hv n) H0 Hm w Hl) as (w' & U & E & R). unfold arr_res.
    destruct (forallb (fun q => fst q <? n) (ws n)) eqn:Ef; cbn [andb fst snd].
    2:{ exists w'. split; [|exact U]. now apply bind_panic. }
    destruct (fin n) eqn:Efin.
    2:{ exists w'. split; [|exact U]. step E. reflexivity. }
    exists w'. split; [step E; reflexivity|]. split; [exact U|]. split; [|split].
    + rewrite rd_slots. f_equal. apply map_ext_in. intros i Hi. apply in_upto in Hi. rewrite (R eq_refl i Hi).
      destruct (Hall n i Efin Hi) as (v & Hin). destruct (last_write_some _ _ _ Hin) as (u & ->). reflexivity.
    + rewrite len_map. apply len_upto.
    + unfold elems_ok. rewrite Forall_forall. intros x Hx. apply in_map_iff in Hx. destruct Hx as (i & <- & Hi). apply in_upto in Hi.
      destruct (Hall n i Efin Hi) as (v & Hin). destruct (last_write_some _ _ _ Hin) as (u & Eu). rewrite Eu. eapply Hv, last_write_in, Eu.
Qed.

Lemma init_array_ok f ai a off n w bl' :
  fty_ok f -> aok f ai -> a + off < W -> a + off <> 0 -> (a + off) mod f_align f = 0 ->
  live (w_blocks w) (a + off) (n * f_size f) ->
  asrc bl' (w_mem w) (a + off) (n * f_size f) f ai -> (forall b, In b bl' -> In b (w_blocks w)) ->
  arr_res f (a + off) n w (init_array f ai a off n w) (arun f n ai).
Proof.
  intros Hf Ha HW H0 Hm Hl Hs Hb. unfold init_array. rewrite wadd_small by auto.
  step (check_ref_ok w _ _ _ H0 Hm Hl). eapply ainit_run_ok; eauto.
Qed.
Lemma arun_len f n ai xs : snd (arun f n ai) = Some xs -> len xs = n.
Proof.
  assert (G : forall l, match snd (gen_run l) with Some xs => len xs = len l | None => True end).
  { induction l as [|[pre [v|]] l IH]; cbn [gen_run]; cbn [snd]; auto.
    destruct (snd (gen_run l)); cbn [option_map]; auto. rewrite !len_cons. lia. }
  assert (G2 : forall l, snd (gen_run l) = Some xs -> len xs = len l).
  { intros l E. specialize (G l). now rewrite E in G. }
  destruct ai as [g|g|g|vs|vs|a k vs|a k vs|vs|ws fin]; cbn [arun]; intros E.
  - apply G2 in E. now rewrite len_map, len_upto in E.
  - apply G2 in E. now rewrite len_map, len_upto in E.
  - apply G2 in E. now rewrite len_map, len_upto in E.
  - cbn [snd] in E. destruct (N.eqb_spec (len vs) n); congruence.
  - destruct (N.eqb_spec (len vs) n); [|discriminate]. apply G2 in E. rewrite len_map in E. congruence.
  - cbn [snd] in E. destruct (N.eqb_spec (len vs) n); congruence.
  - destruct (N.eqb_spec (len vs) n); [|discriminate]. apply G2 in E. rewrite len_map in E. congruence.
  - destruct (N.eqb_spec (len vs) n); cbn [snd] in E; congruence.
  - cbn [snd] in E. destruct (_ && _); [|discriminate]. injection E as <-. rewrite len_map. apply len_upto.
Qed.
Lemma arun_elems f n ai xs : fty_ok f -> aok f ai -> snd (arun f n ai) = Some xs -> elems_ok f xs.
Proof.
  intros Hf Ha.
  assert (G : forall l xs, (forall e v, In (e, Some v) l -> len v = f_size f) ->
    snd (gen_run l) = Some xs -> elems_ok f xs).
  { induction l as [|[pre [v|]] l IH]; cbn [gen_run snd]; intros ys Hl E; try discriminate.
    - injection E as <-. constructor.
    - destruct (snd (gen_run l)) as [zs|]; [|discriminate]. cbn in E. injection E as <-.
      constructor; [eapply Hl; left; eauto|]. eapply IH; eauto. intros; eapply Hl; right; eauto. }
  destruct ai as [g|g|g|vs|vs|a k vs|a k vs|vs|ws fin]; cbn [arun aok] in *; intros E.
  - eapply G; [|exact E]. intros e v Hin. apply in_map_iff in Hin. destruct Hin as (i & Ei & _). injection Ei as _ Ei. eauto.
  - eapply G; [|exact E]. intros e v Hin. apply in_map_iff in Hin. destruct Hin as (i & Ei & _). injection Ei as _ Ei. eauto.
  - eapply G; [|exact E]. intros e v Hin. apply in_map_iff in Hin. destruct Hin as (i & Ei & _). injection Ei as _ Ei. eauto.
  - cbn [snd] in E. destruct (len vs =? n); [|discriminate]. injection E as <-. apply Ha.
  - destruct (len vs =? n); [|discriminate]. eapply G; [|exact E]. intros e v Hin. apply in_map_iff in Hin.
    destruct Hin as (x & Ei & Hx). injection Ei as _ Ei. destruct Hf as (_ & _ & _ & Hc). eapply Hc; eauto.
    unfold elems_ok in Ha. rewrite Forall_forall in Ha. auto.
  - cbn [snd] in E. destruct (len vs =? n); [|discriminate]. injection E as <-. apply Ha.
  - destruct Ha as [Ha _]. destruct (len vs =? n); [|discriminate]. eapply G; [|exact E]. intros e v Hin. apply in_map_iff in Hin.
    destruct Hin as (x & Ei & Hx). injection Ei as _ Ei. destruct Hf as (_ & _ & _ & Hc). eapply Hc; eauto.
    unfold elems_ok in Ha. rewrite Forall_forall in Ha. auto.
  - destruct (len vs =? n); cbn [snd] in E; congruence.
  - cbn [snd] in E. destruct (forallb _ _); cbn [andb] in E; [|discriminate]. destruct (fin n) eqn:Efin; [|discriminate]. injection E as <-.
    destruct Ha as [Hv Hall]. unfold elems_ok. rewrite Forall_forall. intros x Hx. apply in_map_iff in Hx. destruct Hx as (i & <- & Hi). apply in_upto in Hi.
    destruct (Hall n i Efin Hi) as (v & Hin). destruct (last_write_some _ _ _ Hin) as (u & Eu). rewrite Eu. eapply Hv, last_write_in, Eu.
Qed.

(** ** what an initializer builds *)
Lemma irun_ival :
  (forall t i, snd (irun t i) = ival t i) /\
  (forall fs kd is_ cs temps, snd (fruns kd fs is_ cs temps) = ivals fs is_ cs).
Proof.
  apply vty_flds_ind.
  - intros f i. destruct i; reflexivity.
  - intros f k i. destruct i; reflexivity.
  - intros t IH i. destruct i; try reflexivity. cbn. now rewrite IH.
  - intros kd hs ha fs IH i. destruct i; try reflexivity. cbn. now rewrite IH.
  - intros kd is_ cs temps. destruct is_; reflexivity.
  - intros off f r IH kd is_ cs temps. destruct is_ as [|[] is_]; try reflexivity. cbn. now rewrite IH.
  - intros off f r IH kd is_ cs temps. destruct is_ as [|[] is_]; try reflexivity. cbn. now rewrite IH.
  - intros t IHt r IH kd is_ cs temps. destruct is_ as [|i is_]; try reflexivity. cbn. rewrite <- IHt.
    destruct (irun t i) as [e [v|]]; cbn; [now rewrite IH|reflexivity].
  - intros f lf r IH kd is_ cs temps. destruct is_ as [|[] is_]; try reflexivity. cbn.
    destruct (arun f (lf cs) ai) as [e [v|]]; cbn; [now rewrite IH|reflexivity].
Qed.

Lemma ival_ok_all :
  (forall t, wf_ty t -> forall i v, iwt t i -> ival t i = Some v -> (ilens t i = true -> vok t v) /\ vshape v = ishape t i) /\
  (forall fs, wf_flds fs -> forall is_ cs vs, iwt_flds fs is_ -> ivals fs is_ cs = Some vs ->
     vctrls fs vs = ictrls fs is_ /\ (ilens_flds fs is_ cs = true -> vok_flds fs vs cs) /\ map vshape vs = ishapes fs is_ cs).
Proof.
  apply vty_flds_ind.
  - intros f Hwf i v Hi E. destruct i; cbn [iwt ival] in *; try contradiction.
    + injection E as <-. split; [intros _; exact Hi|reflexivity].
    + destruct (f_clone f v0) as [v'|] eqn:Ec; [|discriminate]. cbn in E. injection E as <-.
      split; [intros _|reflexivity]. destruct Hwf as (_ & _ & _ & Hc). eapply Hc; eauto.
    + destruct (f_clone f ghost) as [v'|] eqn:Ec; [|discriminate]. cbn in E. injection E as <-.
      split; [intros _|reflexivity]. destruct Hwf as (_ & _ & _ & Hc). eapply Hc; eauto.
    + injection E as <-. split; [intros _; apply Hi|reflexivity].
    + injection E as <-. split; [intros _; exact Hi|reflexivity].
    + injection E as <-. split; [intros _; apply Hi|reflexivity].
  - intros f k Hwf i v Hi E. destruct i; cbn [iwt ival] in *; try contradiction.
    + destruct (snd (arun f n ai)) as [xs|] eqn:Ea; [|discriminate]. cbn in E. injection E as <-.
      pose proof (arun_len _ _ _ _ Ea). pose proof (arun_elems _ _ _ _ Hwf (proj1 Hi) Ea).
      cbn. subst n. split; [intros _; split; [auto|apply Hi]|reflexivity].
    + injection E as <-. split; [intros _; apply Hi|reflexivity].
    + injection E as <-. split; [intros _; exact Hi|reflexivity].
    + injection E as <-. split; [intros _; apply Hi|reflexivity].
  - intros t IH Hwf i v Hi E. destruct i; cbn [iwt ival] in *; try contradiction.
    + destruct (ival t i) as [v'|] eqn:Ev; [|discriminate]. cbn in E. injection E as <-.
      apply (IH Hwf i v' Hi Ev).
    + injection E as <-. split; [intros _; apply Hi|reflexivity].
    + injection E as <-. split; [intros _; exact Hi|reflexivity].
    + injection E as <-. split; [intros _; apply Hi|reflexivity].
  - intros kd hs ha fs IH Hwf i v Hi E. destruct i; cbn [iwt ival] in *; try contradiction.
    + destruct (ivals fs is_ (ictrls fs is_)) as [vs|] eqn:Ev; [|discriminate]. cbn in E. injection E as <-.
      destruct (IH (proj1 (proj2 Hwf)) is_ _ vs Hi Ev) as (A1 & A2 & A3). cbn [vok vshape ishape ilens].
      rewrite A1, A3. split; auto.
    + injection E as <-. split; [intros _; apply Hi|reflexivity].
    + injection E as <-. split; [intros _; exact Hi|reflexivity].
    + injection E as <-. split; [intros _; apply Hi|reflexivity].
  - intros _ is_ cs vs Hi E. destruct is_; try contradiction. cbn in E. injection E as <-. repeat split.
  - intros off f r IH Hwf is_ cs vs Hi E. destruct is_ as [|[] is_]; try contradiction. cbn [iwt_flds ivals] in *.
    destruct (ivals r is_ cs) as [vs'|] eqn:Ev; [|discriminate]. cbn in E. injection E as <-.
    destruct (IH (proj2 Hwf) is_ cs vs' (proj2 Hi) Ev) as (A1 & A2 & A3).
    cbn [vctrls ictrls vok_flds map vshape ishapes ilens_flds]. rewrite A3. repeat split; auto. apply Hi.
  - intros off f r IH Hwf is_ cs vs Hi E. destruct is_ as [|[] is_]; try contradiction. cbn [iwt_flds ivals] in *.
    destruct (ivals r is_ cs) as [vs'|] eqn:Ev; [|discriminate]. cbn in E. injection E as <-.
    destruct (IH (proj2 Hwf) is_ cs vs' (proj2 Hi) Ev) as (A1 & A2 & A3).
    cbn [vctrls ictrls vok_flds map vshape ishapes ilens_flds]. rewrite A1, A3. repeat split; auto. apply Hi.
  - intros t IHt r IH [Hwt Hwr] is_ cs vs Hi E. destruct is_ as [|i is_]; try contradiction. cbn [iwt_flds ivals] in *.
    destruct (ival t i) as [v|] eqn:Et; [|discriminate].
    destruct (ivals r is_ cs) as [vs'|] eqn:Ev; [|discriminate]. cbn in E. injection E as <-.
    destruct (IH Hwr is_ cs vs' (proj2 Hi) Ev) as (A1 & A2 & A3).
    destruct (IHt Hwt i v (proj1 Hi) Et) as (B1 & B2).
    cbn [vctrls ictrls vok_flds map ishapes ilens_flds]. rewrite A3, B2. repeat split; auto; apply andb_prop in H; destruct H; auto.
  - intros f lf r IH (Hf & Hwr) is_ cs vs Hi E. destruct is_ as [|[] is_]; try contradiction. cbn [iwt_flds ivals] in *.
    destruct (snd (arun f (lf cs) ai)) as [xs|] eqn:Ea; [|discriminate].
    destruct (ivals r is_ cs) as [vs'|] eqn:Ev; [|discriminate]. cbn in E. injection E as <-.
    destruct (IH Hwr is_ cs vs' (proj2 Hi) Ev) as (A1 & A2 & A3).
    pose proof (arun_len _ _ _ _ Ea) as Hl. pose proof (arun_elems _ _ _ _ Hf (proj1 Hi) Ea).
    cbn [vctrls ictrls vok_flds map vshape ishapes ilens_flds]. rewrite A3, Hl. split; [exact A1|]. split; [|reflexivity].
    intros Hz. apply andb_prop in Hz. destruct Hz as [Hz1 Hz2]. apply N.ltb_lt in Hz1. repeat split; auto.
Qed.
