(** SessLock.v - beginning take_elems, and getting the sequence back (C59). *)
From Verif Require Export SessOpen.

(** ** the bitmap as a value *)
Lemma bm_wf n : n <= ISIZE_MAX -> wf_ty (bm_ty n).
Proof.
  intros H. cbn [bm_ty wf_ty]. unfold fty_ok. cbn [f_align f_size f_clone]. split; [apply pow2_1|]. split; [apply N.mod_1_r|]. split; [exact H|]. intros v v' E. congruence.
Qed.
Lemma bitmap_le_storage t chk cap : storage_bytes t chk cap = cap * sp_align t + bm_bytes chk cap.
Proof. reflexivity. Qed.
Lemma bm_bits w t s old bytes : rd (w_mem w) (s_ptr s + s_cap s * sp_align t) (bitmap_bytes (s_cap s)) = bytes ->
  s_occ s = 0 -> bits_ok bytes old -> bits_within w t s [] old.
Proof.
  intros Hrd Hocc Hb Hc o Ho Hne. cbn [starts In]. split; [intros []|]. intros Hbit. right. unfold bit_at in Hbit.
  set (B0 := bitmap_bytes (s_cap s)) in *.
  assert (Hj : o / 8 < B0) by (apply N.div_lt_upper_bound; lia).
  destruct (w_mem w (s_ptr s + s_cap s * sp_align t + o / 8)) as [|b] eqn:Em; [discriminate|].
  apply (Hb o b); [congruence| |exact Hbit]. rewrite <- Hrd, <- Em.
  rewrite <- (nth_rd (w_mem w) (s_ptr s + s_cap s * sp_align t) B0 (o / 8) Un Hj). apply nth_error_nth'.
  assert (Hl : len (rd (w_mem w) (s_ptr s + s_cap s * sp_align t) B0) = B0) by apply len_rd. unfold len in Hl. lia.
Qed.
Lemma bits_bm w t s vs old : bits_within w t s vs old -> 0 < s_cap s ->
  bits_ok (rd (w_mem w) (s_ptr s + s_cap s * sp_align t) (bitmap_bytes (s_cap s))) (old ++ starts t vs 0 ++ [s_occ s]).
Proof.
  intros Hb Hc o b Hne Hn Hbit. set (B0 := bitmap_bytes (s_cap s)) in *.
  assert (Hl : len (rd (w_mem w) (s_ptr s + s_cap s * sp_align t) B0) = B0) by apply len_rd.
  assert (Hj : o / 8 < B0). { assert (N.to_nat (o / 8) < length (rd (w_mem w) (s_ptr s + s_cap s * sp_align t) B0))%nat by (apply nth_error_Some; congruence). unfold len in Hl. lia. }
  pose proof (nth_rd (w_mem w) (s_ptr s + s_cap s * sp_align t) B0 (o / 8) Un Hj) as Em. rewrite (nth_error_nth _ _ Un Hn) in Em.
  rewrite !in_app_iff. destruct (N.eq_dec o (s_occ s)) as [E|E]; [right; right; left; auto|].
  assert (Ho : o < 8 * B0). { pose proof (N.div_mod o 8 ltac:(lia)). pose proof (N.mod_lt o 8 ltac:(lia)). lia. }
  destruct (proj2 (Hb Hc o Ho E)) as [H|H]; auto. unfold bit_at. rewrite <- Em. exact Hbit.
Qed.

(** ** getting the sequence back *)
Lemma in_concat_update (gs : list division) k g : nth_error gs k = Some g -> forall x, In x (concat (update gs k [])) -> In x (concat gs).
Proof.
  intros Hk x Hx. rewrite (update_split _ _ _ _ Hk), concat_app in Hx. cbn [concat app] in Hx. rewrite (nth_split_at _ _ _ Hk), concat_app. cbn [concat]. rewrite !in_app_iff in *. tauto.
Qed.
Lemma nodup_fst_update (gs : list division) k b tl : nth_error gs k = Some [(b, tl)] -> NoDup (map fst (concat gs)) ->
  NoDup (map fst (concat (update gs k []))) /\ forall g, In g (concat (update gs k [])) <-> In g (concat gs) /\ fst g <> b.
Proof.
  intros Hk Hn. rewrite (update_split _ _ _ _ Hk), concat_app. cbn [concat app]. rewrite (nth_split_at _ _ _ Hk), concat_app in Hn. cbn [concat app] in Hn.
  rewrite map_app in *. cbn [map fst] in Hn. pose proof (NoDup_remove _ _ _ Hn) as [N1 N2]. split; [exact N1|].
  intros g. rewrite (nth_split_at _ _ _ Hk) at 3. rewrite concat_app. cbn [concat app]. rewrite !in_app_iff. cbn [In]. split.
  - intros Hg. split; [tauto|]. intros E. apply N2. rewrite in_app_iff. rewrite <- E. destruct Hg as [Hg|Hg]; [left|right]; apply in_map; exact Hg.
  - intros [[Hg|[<-|Hg]] Hne]; auto. cbn [fst] in Hne. congruence.
Qed.
Lemma unlock_step w sl xs σ ax n k : XInv w sl xs σ ax n -> xallowed σ ax (XUnlock k) -> xstep_res σ ax (XUnlock k) w n (xexec (XUnlock k) (w, sl, xs)).
Proof.
  intros (wv & slv & σv & gs & HR & HG & HI & -> & -> & HN & HH & HE) Hal.
  inversion Hal as [| | | | |? a Ha Ho Hdead]; subst. destruct (get_session _ _ _ _ _ _ _ _ HE Ha) as (x & g & Hx & Hg & Hs).
  destruct x as [h t chk s oit todo], a as [ah at_ achk aold aids aleft aop]. cbn [a_open a_ids] in *. subst aop.
  pose proof Hs as ((S1 & S2 & S3 & S4 & Hwf & Hz & Sl & So) & Sit & Sbm & Sst & Si1 & Si2). unfold iter_ok in Sit. cbn [x_h x_t x_chk x_todo x_it x_s a_h a_t a_chk a_left a_ids a_open] in *. subst ah at_ achk.
  destruct Sit as [-> ->]. cbn [map] in S4. subst todo.
  cbn [xexec]. rewrite Hx. cbn [xstep_res].
  assert (Hd : hidden xs = hidden (firstn k xs) ++ [h] ++ hidden (skipn (S k) xs)) by (apply hidden_split in Hx; exact Hx).
  assert (Hd' : hidden (update xs k None) = hidden (firstn k xs) ++ [] ++ hidden (skipn (S k) xs)) by (eapply hidden_update in Hx; exact Hx).
  destruct (nodup_mid (hidden (firstn k xs)) [h] (hidden (skipn (S k) xs)) []) as (M1 & M2 & M3).
  { rewrite <- Hd. exact HN. } { constructor. } { intros z []. }
  rewrite <- Hd' in *. rewrite <- Hd in *.
  assert (Hnh : ~ In h (hidden (update xs k None))) by (apply M3; [left; reflexivity|intros []]).
  assert (Hsub : forall z, In z (hidden xs) -> In z (hidden (update xs k None)) \/ z = h).
  { intros z Hz0. rewrite Hd in Hz0. rewrite Hd'. rewrite !in_app_iff in *. cbn [In] in *. intuition. }
  pose proof HI as (Hbl & Hlen & Hrep & _).
  destruct Sbm as (bytes & Bh & Bb & Bo). cbn [x_h x_t x_chk x_s] in Bh, Bo.
  pose proof (Hrep _ _ _ Bh) as Brep. cbn [rep] in Brep. destruct Brep as (_ & Bwf & (Bv & Bpl & Brd) & Binc). cbn [bm_ty vok repr f_size] in Bv, Brd.
  (* nobody owns a part of the storage *)
  assert (Hfree : forall tiles, owners slv σv tiles (h :: aids) -> forall z u v y, z <> h -> at_h slv σv z u v -> In y (hbases u v) -> ~ In y (map b_base tiles)).
  { intros tiles Hown z u v y Hzh Hah Hy Hin. destruct (Hown z u v y Hah Hy Hin) as [E|Hi]; [congruence|].
    specialize (Hdead z Hi). rewrite nth_kill_aval in Hdead. destruct (in_dec Nat.eq_dec z (hidden xs)) as [Hin2|Hn2].
    - destruct (Si2 z Hi) as [_ X]. destruct (X Hin2).
    - destruct Hah as [_ Hv]. rewrite Hv in Hdead. injection Hdead as ->. unfold hbases in Hy. destruct u; contradiction. }
  assert (exists wv' gs', Rw (concat gs') w wv' /\ NoDup (map fst (concat gs')) /\ length gs' = length gs /\ (nth_error gs' k = Some [] /\ forall j, j <> k -> nth_error gs' j = nth_error gs j) /\
     Inv wv' (update slv h (SSeq t chk s)) (replace_nth σv h (ASeq t chk [] aold)) n) as (wv' & gs' & HR' & HG' & Hgl & [Hgk Hgj] & HI').
  { unfold store_at in Sst. cbn [x_h x_t x_chk x_s a_ids] in Sst. destruct Sst as [(E0 & Ep & ->)|(Hc & Hst & Hmod & tiles & -> & Hown)].
    - exists wv, gs. split; [exact HR|]. split; [exact HG|]. split; [reflexivity|]. split; [split; [exact Hg|reflexivity]|].
      assert (En : bm_bytes chk (s_cap s) = 0) by (unfold bm_bytes; rewrite E0; destruct chk; reflexivity).
      apply (inv_change wv slv σv n wv [] [] h _ _ (SSeq t chk s) (ASeq t chk [] aold) HI (Forall2_nil _) Bh); auto.
      + intros b Hb _. split; [exact Hb|reflexivity].
      + cbn [rep]. split; [auto|]. split; [|intros _ X; lia]. split; [exact Sl|]. split; [rewrite So; reflexivity|]. split; [lia|]. left. auto.
      + unfold hbases. cbn [hblocks]. rewrite E0. cbn. intros y [].
      + intros b Hb Hh. right. split; [exact Hb|]. rewrite app_nil_r. unfold hbases. cbn [hblocks]. unfold vsize, bm_ty. cbn [sp_size f_size]. rewrite En. cbn. intros [].
    - set (f := fun b => if in_dec block_dec b tiles then false else true).
      assert (Hf : forall b, f b = true <-> ~ In b tiles) by (intros b; unfold f; destruct (in_dec block_dec b tiles); split; intros; try congruence; try contradiction).
      pose proof HR as (R1 & R2 & R3 & R4 & R5 & R6 & R7).
      assert (HinG : In (seq_block t chk s, tiles) (concat gs)) by (apply in_concat; exists [(seq_block t chk s, tiles)]; split; [eapply nth_error_In, Hg|left; reflexivity]).
      destruct (proj2 R7 _ HinG) as [Hreal Hpart]. cbn [fst snd] in Hreal, Hpart.
      destruct (nodup_fst_update gs k _ _ Hg HG) as [HG' HinG'].
      set (bl1 := filter f (w_blocks wv)). set (wv1 := set_blocks wv bl1).
      assert (Hin1 : forall b, In b bl1 <-> In b (w_blocks wv) /\ ~ In b tiles) by (intros b; unfold bl1; rewrite filter_In, Hf; reflexivity).
      assert (HI1 : Inv wv1 (kill slv [h]) (kill_vals σv [h]) n).
      { apply (inv_step wv slv σv n wv1 _ _ n (map b_base tiles) (length slv) [] HI).
        - apply wf_filter, Hbl.
        - intros b Hb Hnb. split; [|reflexivity]. apply Hin1. split; [exact Hb|]. intros X. apply Hnb, in_map, X.
        - apply kill_lens, Hlen.
        - intros z u v Hah. destruct (at_h_kill _ _ _ _ _ _ Hah) as [[Hah0 Hni]|(_ & -> & ->)].
          + left. split; [exact Hah0|]. intros y Hy. refine (Hfree tiles Hown z u v y _ Hah0 Hy). intros ->. apply Hni. left. reflexivity.
          + right. split; [exact I|]. left. reflexivity.
        - cbn. lia.
        - intros b Hb Hh. right. right. apply Hin1 in Hb. split; [apply Hb|]. intros z u v Hah Hy. apply at_h_keep; [exact Hah|]. intros [<-|[]].
          destruct (at_h_fun _ _ _ _ _ _ _ Bh Hah) as [<- <-]. assert (X : In b (hblocks (SOwn (bm_ty (bm_bytes chk (s_cap s))) (s_ptr s + s_cap s * sp_align t)) (AOwn (bm_ty (bm_bytes chk (s_cap s))) (VFix bytes)))) by (eapply hblock_base; eauto; apply Hb).
          cbn [hblocks] in X. destruct (_ =? 0) in X; [contradiction|]. destruct X as [<-|[]]. discriminate. }
      set (wv2 := mkW (w_mem wv) (seq_block t chk s :: bl1) (outside (concat (update gs k [])) (w_alloc w)) (w_tick wv) (w_log wv)).
      assert (Hin2 : forall c, In c (w_blocks wv2) <-> c = seq_block t chk s \/ (In c (w_blocks wv) /\ ~ In c tiles)).
      { intros c. cbn [wv2 w_blocks In]. rewrite Hin1. intuition. }
      pose proof (divided_merge (concat gs) (concat (update gs k [])) _ _ (w_blocks wv2) _ _ R5 R6 R7 HG HinG HinG' Hin2) as Hdiv.
      assert (Hap : forall c, In c bl1 -> blocks_apart (seq_block t chk s) c).
      { intros c Hc1. apply Hin1 in Hc1. destruct Hc1 as [Hc1 Hc2]. pose proof Hc1 as Hc0. apply R7 in Hc1. destruct Hc1 as [[K1 K2]|(g & K1 & K2)].
        - assert (Hne : seq_block t chk s <> c) by (intros E; apply K2; rewrite <- E; apply in_map_iff; exists (seq_block t chk s, tiles); auto).
          apply (wf_blocks_disj _ _ _ R5 Hreal K1). intros E. apply Hne. exact (wf_same_base _ _ _ R5 Hreal K1 E).
        - assert (Hne : fst g <> seq_block t chk s).
          { intros E. assert (Hgin : In g (concat (update gs k [])) \/ g = (seq_block t chk s, tiles)).
            { rewrite (update_split _ _ _ _ Hg), concat_app. cbn [concat app]. rewrite (nth_split_at _ _ _ Hg), concat_app in K1. cbn [concat app] in K1. rewrite in_app_iff in *. cbn [In] in K1. intuition. }
            destruct Hgin as [X|X]; [apply HinG' in X; tauto|]. subst g. contradiction. }
          destruct (proj2 R7 g K1) as [G1 G2]. destruct (G2 c K2) as (_ & G3 & G4).
          assert (Hbb : b_base (seq_block t chk s) <> b_base (fst g)) by (intros E; apply Hne; symmetry; exact (wf_same_base _ _ _ R5 Hreal G1 E)).
          pose proof (wf_blocks_disj _ _ _ R5 Hreal G1 Hbb) as Hx1. unfold blocks_apart in *. lia. }
      pose proof (wf_block_in _ _ R5 Hreal) as (W1 & W2 & W3).
      assert (Hwf2 : wf_blocks (w_blocks wv2)) by (apply wf_cons; auto; apply wf_filter, Hbl).
      exists wv2, (update gs k []). split; [|split; [exact HG'|split; [apply update_length|split]]].
      + split; [exact R1|]. split; [exact R2|]. split; [exact R3|]. split; [reflexivity|]. split; [exact R5|]. split; [exact Hwf2|exact Hdiv].
      + unfold division in *. split; [rewrite nth_update; destruct (Nat.eq_dec k k); [|congruence]; now rewrite Hg|]. intros j Hj. rewrite nth_update. destruct (Nat.eq_dec k j); [congruence|reflexivity].
      + assert (Hdd : at_h (kill slv [h]) (kill_vals σv [h]) h SDead ADead) by exact (at_h_update_r slv σv h SDead ADead _ _ Bh).
        assert (Hbase : hbases (SSeq t chk s) (ASeq t chk [] aold) = [s_ptr s]) by (unfold hbases; cbn [hblocks]; destruct (N.eqb_spec (s_cap s) 0); [lia|reflexivity]).
        assert (HI2 : Inv wv2 (update (kill slv [h]) h (SSeq t chk s)) (replace_nth (kill_vals σv [h]) h (ASeq t chk [] aold)) n).
        { apply (inv_change wv1 (kill slv [h]) (kill_vals σv [h]) n wv2 [] [] h SDead ADead (SSeq t chk s) (ASeq t chk [] aold) HI1 (Forall2_nil _) Hdd); auto.
          - intros b Hb _. split; [right; exact Hb|reflexivity].
          - cbn [rep]. split; [auto|]. split.
            + split; [exact Sl|]. split; [rewrite So; reflexivity|]. split; [lia|]. right. split; [exact Hc|]. split; [left; reflexivity|]. split; [exact Hst|]. split; [exact Hmod|]. split; [exact I|].
              intros ->. cbn [bm_bytes] in *. intros j Hj. apply Bb. change (w_mem wv2) with (w_mem wv). rewrite <- Brd. rewrite <- (nth_rd (w_mem wv) _ _ j Un Hj). apply nth_In.
              pose proof (len_rd (w_mem wv) (s_ptr s + s_cap s * sp_align t) (bitmap_bytes (s_cap s))) as Hl. unfold len in Hl. lia.
            + intros ->. cbn [bm_bytes] in *. eapply bm_bits; [exact Brd|exact So|auto].
          - rewrite Hbase. intros y [<-|[]]. right. intros b Hb E. specialize (Hap b Hb). pose proof (wf_block_in _ _ Hbl (proj1 (proj1 (Hin1 b) Hb))) as (_ & Hpos & _).
            unfold blocks_apart in Hap. cbn [seq_block b_base b_size] in *. lia.
          - intros b [<-|Hb] Hh; [left; rewrite Hbase; left; reflexivity|]. right. split; [exact Hb|]. intros []. }
        replace (update slv h (SSeq t chk s)) with (update (kill slv [h]) h (SSeq t chk s)); [|apply nth_ext'; intros j; cbn [kill fold_left]; rewrite !nth_update; destruct (Nat.eq_dec h j) as [<-|]; [destruct (nth_error slv h)|]; reflexivity].
        replace (replace_nth σv h (ASeq t chk [] aold)) with (replace_nth (kill_vals σv [h]) h (ASeq t chk [] aold)); [exact HI2|].
        rewrite !replace_update. apply nth_ext'; intros j. rewrite !nth_update, nth_kill_aval. destruct (Nat.eq_dec h j) as [<-|Hne].
        * destruct (in_dec _ _ _); destruct (nth_error σv h); reflexivity.
        * destruct (in_dec Nat.eq_dec j [h]) as [[E|[]]|]; [congruence|reflexivity]. }
  exists (replace_nth (kill_vals σv (hidden xs)) h (ASeq t chk [] aold)), (replace_nth ax k None), [].
  split; [eapply XS_unlock; exact Ha|]. split; [now rewrite app_nil_r|].
  exists wv', (update slv h (SSeq t chk s)), (replace_nth σv h (ASeq t chk [] aold)), gs'. split; [exact HR'|]. split; [exact HG'|]. split; [exact HI'|].
  split; [|split; [|split; [exact M1|split]]].
  - apply nth_ext'. intros j. rewrite nth_update, !nth_kill_slot, nth_update. destruct (Nat.eq_dec h j) as [<-|Hne].
    + destruct (in_dec Nat.eq_dec h (hidden (update xs k None))); [contradiction|]. destruct (in_dec _ _ _); destruct (nth_error slv h); reflexivity.
    + destruct (in_dec Nat.eq_dec j (hidden xs)) as [A|A], (in_dec Nat.eq_dec j (hidden (update xs k None))) as [B0|B0]; auto; [destruct (Hsub j A); congruence|destruct A; apply M2, B0].
  - rewrite !replace_update. apply nth_ext'. intros j. rewrite nth_update, !nth_kill_aval, nth_update. destruct (Nat.eq_dec h j) as [<-|Hne].
    + destruct (in_dec Nat.eq_dec h (hidden (update xs k None))); [contradiction|]. destruct (in_dec _ _ _); destruct (nth_error σv h); reflexivity.
    + destruct (in_dec Nat.eq_dec j (hidden xs)) as [A|A], (in_dec Nat.eq_dec j (hidden (update xs k None))) as [B0|B0]; auto; [destruct (Hsub j A); congruence|destruct A; apply M2, B0].
  - intros z Hz0. rewrite update_length. apply HH, M2, Hz0.
  - destruct HE as (L1 & L2 & HE). change (@replace_nth (option asession)) with (@update (option asession)). split; [rewrite !update_length; exact L1|]. split; [rewrite update_length; etransitivity; [exact L2|symmetry; exact Hgl]|].
    unfold division in *. intros j y b g' Hy Hb' Hg'. rewrite nth_update in Hy. rewrite nth_update in Hb'. destruct (Nat.eq_dec k j) as [<-|Hne].
    + rewrite Hx in Hy. rewrite Ha in Hb'. cbn in Hy, Hb'. injection Hy as <-. injection Hb' as <-. rewrite Hgk in Hg'. injection Hg' as <-. reflexivity.
    + rewrite (Hgj j) in Hg' by auto. pose proof (HE j y b g' Hy Hb' Hg') as Hsj. destruct y as [y|], b as [b|]; cbn [entry] in *; auto.
      assert (Hyt : forall z, z = x_h y \/ In z (x_todo y) -> In z (hidden (update xs k None))).
      { intros z Hz0. apply in_hidden. exists j, y. split; [rewrite nth_update; destruct (Nat.eq_dec k j); [congruence|exact Hy]|exact Hz0]. }
      assert (Hkeep : forall z u v, In z (hidden (update xs k None)) -> at_h slv σv z u v -> at_h (update slv h (SSeq t chk s)) (replace_nth σv h (ASeq t chk [] aold)) z u v).
      { intros z u v Hz0 Hah. apply at_h_update_l; [exact Hah|]. intros ->. contradiction. }
      destruct Hsj as (T1 & T2 & T3 & T4 & T5 & T6). split; [exact T1|]. split; [|split; [|split]].
      * unfold iter_ok in *. destruct (a_open b); [|exact T2]. destruct T2 as (it2 & F1 & F2 & F3 & F4). exists it2. repeat split; auto.
        eapply pending_keep; [|exact F4]. intros z u v Hz0. apply Hkeep, Hyt. right. destruct T1 as (_ & _ & _ & -> & _). exact Hz0.
      * destruct T3 as (bts & B1 & B2). exists bts. split; [|exact B2]. apply Hkeep; [|exact B1]. apply Hyt. left. reflexivity.
      * destruct T4 as [T4|(A1 & A2 & A3 & tiles & A4 & A5)]; [left; exact T4|right]. split; [exact A1|]. split; [exact A2|]. split; [exact A3|]. exists tiles. split; [exact A4|].
        intros z u v q Hah Hq Hin. destruct (at_h_update _ _ _ _ _ _ _ _ Hah) as [[Hah0 _]|(-> & -> & ->)]; [eapply A5; eauto|exfalso].
        apply in_map_iff in Hin. destruct Hin as (c & Ec & Hc).
        pose proof HR' as (_ & _ & _ & _ & _ & R6' & R7').
        assert (Hg0 : In (seq_block (x_t y) (x_chk y) (x_s y), tiles) (concat gs')) by (apply in_concat; exists g'; split; [rewrite <- (Hgj j) in Hg' by auto; eapply nth_error_In, Hg'|rewrite A4; left; reflexivity]).
        assert (Hcv : In c (w_blocks wv')) by (apply R7'; right; eauto).
        assert (X : In c (hblocks (SSeq t chk s) (ASeq t chk [] aold))) by (eapply (hblock_base wv'); [exact R6'|exact (proj1 (proj2 (proj2 HI')) _ _ _ Hah)|exact Hcv|rewrite Ec; exact Hq]).
        cbn [hblocks] in X. destruct (s_cap s =? 0); [contradiction|]. destruct X as [<-|[]]. destruct (proj2 R7' _ Hg0) as [_ G2]. destruct (G2 _ Hc) as [X _]. discriminate.
      * split; [exact T5|]. intros z Hz0. destruct (T6 z Hz0) as [A1 A2]. split.
        -- rewrite nth_update. destruct (Nat.eq_dec h z) as [<-|]; [|exact A1]. exfalso.
           destruct (T6 h Hz0) as [_ X]. assert (Hhh : In h (hidden xs)) by (rewrite Hd, !in_app_iff; right; left; left; reflexivity).
           apply Hnh, Hyt. right. apply X, Hhh.
        -- intros Hin. apply A2, M2, Hin.
Qed.

(** ** take_elems *)
Lemma NoDup_app_snoc {A} (l : list A) x : NoDup l -> ~ In x l -> NoDup (l ++ [x]).
Proof.
  intros H Hx. induction H as [|y l Hy Hn IH]; cbn [app]; [constructor; [intros []|constructor]|]. constructor.
  - intros X. apply in_app_or in X. destruct X as [X|[<-|[]]]; [contradiction|]. apply Hx. left. reflexivity.
  - apply IH. intros X. apply Hx. right. exact X.
Qed.
Lemma nodup_app {A} (l m : list A) : NoDup l -> NoDup m -> (forall z, In z l -> ~ In z m) -> NoDup (l ++ m).
Proof.
  intros Hl Hm Hd. induction Hl as [|y l Hy Hn IH]; cbn [app]; [exact Hm|]. constructor.
  - intros X. apply in_app_or in X. destruct X as [X|X]; [contradiction|]. exact (Hd y (or_introl eq_refl) X).
  - apply IH. intros z Hz. apply Hd. right. exact Hz.
Qed.
Lemma map_fst_combine {A B} : forall (l : list A) (m : list B), length l = length m -> map fst (combine l m) = l.
Proof. induction l as [|x l IH]; intros [|y m] H; cbn in *; try discriminate; [reflexivity|]. f_equal. apply IH. lia. Qed.
Lemma map_snd_combine {A B} : forall (l : list A) (m : list B), length l = length m -> map snd (combine l m) = m.
Proof. induction l as [|x l IH]; intros [|y m] H; cbn in *; try discriminate; [reflexivity|]. f_equal. apply IH. lia. Qed.
Lemma kills_app_all {A} (d : A) l m H h : (forall z, In z H -> (z < length l)%nat) -> (h < length l)%nat ->
  kills d (l ++ m) (H ++ h :: seq (length l) (length m)) = update (kills d l H) h d ++ repeat d (length m).
Proof.
  intros HH Hh. apply nth_ext'. intros j. rewrite nth_kills. destruct (Nat.lt_ge_cases j (length l)) as [Hj|Hj].
  - rewrite (nth_error_app1 l) by lia. rewrite (nth_error_app1 (update _ _ _)) by (rewrite update_length, kills_length; lia). rewrite nth_update, nth_kills.
    destruct (in_dec Nat.eq_dec j (H ++ h :: seq (length l) (length m))) as [Hi|Hn].
    + rewrite in_app_iff in Hi. destruct (Nat.eq_dec h j) as [->|Hne]; [destruct (in_dec _ _ _); destruct (nth_error l j); reflexivity|].
      destruct (in_dec Nat.eq_dec j H) as [Hi2|Hn2]; [reflexivity|]. destruct Hi as [Hi|[Hi|Hi]]; try contradiction. apply in_seq in Hi. lia.
    + rewrite in_app_iff in Hn. destruct (Nat.eq_dec h j) as [->|Hne]; [exfalso; apply Hn; right; left; reflexivity|].
      destruct (in_dec Nat.eq_dec j H) as [Hi2|Hn2]; [exfalso; apply Hn; left; exact Hi2|reflexivity].
  - rewrite (nth_error_app2 l) by lia. rewrite (nth_error_app2 (update _ _ _)) by (rewrite update_length, kills_length; lia). rewrite update_length, kills_length.
    destruct (Nat.lt_ge_cases (j - length l) (length m)) as [Hm|Hm].
    + destruct (in_dec Nat.eq_dec j (H ++ h :: seq (length l) (length m))) as [Hi|Hn].
      * destruct (nth_error m (j - length l)) eqn:E; [|apply nth_error_None in E; lia]. cbn [option_map]. symmetry. apply nth_error_repeat. exact Hm.
      * exfalso. apply Hn, in_or_app. right. right. apply in_seq. lia.
    + rewrite (proj2 (nth_error_None m (j - length l)) Hm). rewrite (proj2 (nth_error_None (repeat d (length m)) (j - length l))) by (rewrite repeat_length; lia).
      destruct (in_dec _ _ _); reflexivity.
Qed.
Lemma begin_step w sl xs σ ax n h : XInv w sl xs σ ax n -> xallowed σ ax (XBegin h) -> xstep_res σ ax (XBegin h) w n (xexec (XBegin h) (w, sl, xs)).
Proof.
  intros (wv & slv & σv & gs & HR & HG & HI & -> & -> & HN & HH & HE) Hal.
  inversion Hal as [|? t chk vs old Hσ| | | |]; subst.
  assert (Hnh : ~ In h (hidden xs)).
  { intros X. pose proof Hσ as Hσ'. apply (hidden_dead wv slv σv n) in Hσ'; auto. discriminate. }
  assert (Hσv : nth_error σv h = Some (ASeq t chk vs old)) by (rewrite nth_kill_aval in Hσ; destruct (in_dec _ _ _); [contradiction|exact Hσ]).
  destruct (seq_slot wv slv σv n h t chk vs old HI Hσv) as (s & Hah & Hwf & Hz & Hat & Hbits).
  pose proof HI as (Hbl & Hlen & Hrep & Hdis & _). pose proof (sp_align_pos t Hwf) as Hal0.
  assert (Hhl : (h < length slv)%nat) by (apply nth_error_Some; destruct Hah as [X _]; congruence).
  assert (Hsl : nth_error (kill slv (hidden xs)) h = Some (SSeq t chk s)).
  { rewrite nth_kill_slot. destruct (in_dec _ _ _); [contradiction|]. apply Hah. }
  cbn [xexec]. rewrite Hsl.
  destruct (take_elems_ok wv t chk s vs Hwf Hbl Hat) as (wv1 & it & E1 & (Q1 & Q2 & Q3 & Q4 & Q5) & Hit & Eit & Hat1).
  pose proof (sim_take (concat gs) t chk (w, s) (wv, s) (conj HR eq_refl)) as Hsim. rewrite E1 in Hsim. destruct Hsim as ([w1 s1] & -> & HR1 & Es1). cbn [fst snd] in HR1, Es1. subst s1. cbn [xstep_res].
  assert (HI1 : Inv wv1 slv σv n) by (eapply inv_world; eauto).
  set (s' := mkS (s_ptr s) 0 0 (s_cap s)) in *. rewrite Eit in *. cbn [seq_iter it_len].
  assert (Hsn : s_len s = len vs) by apply Hat. rewrite Hsn. replace (N.to_nat (len vs)) with (length vs) by (unfold len; lia). rewrite ?seq_length.
  assert (Hkl : length (kill slv (hidden xs)) = length slv) by (change (kill slv (hidden xs)) with (kills SDead slv (hidden xs)); apply kills_length). rewrite Hkl.
  set (ids := seq (length slv) (length vs)).
  set (nb := bm_bytes chk (s_cap s)). set (ba := s_ptr s + s_cap s * sp_align t).
  set (bytes := rd (w_mem wv1) ba nb).
  set (slv2 := update slv h (SOwn (bm_ty nb) ba)). set (σv2 := replace_nth σv h (AOwn (bm_ty nb) (VFix bytes))).
  set (slv3 := slv2 ++ owns t (s_ptr s) vs). set (σv3 := σv2 ++ map (AOwn t) vs).
  assert (Hl2 : length slv2 = length slv) by apply update_length.
  assert (Hl2' : length σv2 = length σv) by apply update_length.
  assert (Hah2 : at_h slv2 σv2 h (SOwn (bm_ty nb) ba) (AOwn (bm_ty nb) (VFix bytes))) by exact (at_h_update_r slv σv h _ _ _ _ Hah).
  assert (Hbv : vsize (bm_ty nb) (VFix bytes) = nb) by reflexivity.
  assert (Hat' : seq_at wv1 t chk s vs) by (pose proof (proj1 (proj2 (proj2 HI1)) _ _ _ Hah) as X; cbn [rep] in X; apply X).
  assert (Hbits' : chk = true -> bits_within wv1 t s vs old) by (pose proof (proj1 (proj2 (proj2 HI1)) _ _ _ Hah) as X; cbn [rep] in X; apply X).
  destruct Hat' as (P1 & P2 & P3 & P4).
  (* the divided world *)
  assert (exists wv3 g, Rw (concat (gs ++ [g])) w1 wv3 /\ NoDup (map fst (concat (gs ++ [g]))) /\ Inv wv3 slv3 σv3 n /\
      ((s_cap s = 0 /\ 0 < s_ptr s < W /\ g = []) \/
       (0 < s_cap s /\ storage_bytes t chk (s_cap s) + (sp_align t - 1) <= ISIZE_MAX /\ s_ptr s mod sp_align t = 0 /\
        exists tiles, g = [(seq_block t chk s', tiles)] /\
          (forall c, In c tiles -> exists z u v, In z (h :: ids) /\ at_h slv3 σv3 z u v /\ In c (hblocks u v)) /\
          (forall z u v c, at_h slv3 σv3 z u v -> In c (hblocks u v) -> at_h slv σv z u v /\ z <> h \/ In c tiles))))
    as (wv3 & g & HR3 & HG3 & HI3 & Hg).
  { destruct P4 as [((E0 & Ep) & Ev)|(Hc & Hin & Hst & Hmod & Hel & Hby)].
    - exists wv1, []. rewrite concat_app. cbn [concat]. rewrite !app_nil_r. split; [exact HR1|]. split; [exact HG|]. split; [|left; auto].
      assert (En : nb = 0) by (unfold nb, bm_bytes; rewrite E0; destruct chk; reflexivity).
      unfold slv3, σv3. rewrite Ev. cbn [owns map]. rewrite !app_nil_r.
      apply (inv_change wv1 slv σv n wv1 [] [] h _ _ (SOwn (bm_ty nb) ba) (AOwn (bm_ty nb) (VFix bytes)) HI1 (Forall2_nil _) Hah); auto.
      + apply HI1.
      + intros b Hb _. split; [exact Hb|reflexivity].
      + cbn [rep hblocks]. rewrite Hbv, En. cbn [N.eqb]. split; [reflexivity|]. split; [apply bm_wf; lia|]. split; [|intros b []].
        split; [unfold bytes; rewrite En; reflexivity|]. split; [|unfold bytes; rewrite En; reflexivity]. split; [unfold ba; lia|]. split; [apply N.mod_1_r|]. unfold ba. rewrite E0.
        split; [unfold vsize; cbn [sp_size bm_ty f_size]; lia|left; reflexivity].
      + unfold hbases. cbn [hblocks]. rewrite Hbv, En. cbn. intros y [].
      + intros b Hb Hh. right. split; [exact Hb|]. rewrite app_nil_r. unfold hbases. cbn [hblocks]. rewrite E0. cbn. intros [].
    - pose proof HR1 as (R1 & R2 & R3 & R4 & R5 & R6 & R7).
      destruct (divided_real _ _ _ _ R7 Hin eq_refl) as [Hreal Hng].
      pose proof (wf_block_in _ _ R5 Hreal) as (W1 & W2 & W3). cbn [seq_block b_base b_size] in W1, W2, W3. rewrite bitmap_le_storage in W2, W3. fold nb in W2, W3. rewrite bitmap_le_storage in Hst. fold nb in Hst.
      set (bl1 := del_block (w_blocks wv1) (s_ptr s)).
      assert (Hin1 : forall b, In b bl1 <-> In b (w_blocks wv1) /\ b <> seq_block t chk s).
      { intros b. unfold bl1. rewrite in_del. split; intros [A B]; (split; [exact A|]).
        - intros ->. apply B. reflexivity.
        - intros E. apply B. exact (wf_same_base _ _ _ R6 A Hin E). }
      assert (Hap : forall b, In b bl1 -> b_base b + b_size b <= s_ptr s \/ s_ptr s + (s_cap s * sp_align t + nb) <= b_base b).
      { intros b Hb. apply Hin1 in Hb. destruct Hb as [Hb Hne]. assert (Hbb : b_base b <> b_base (seq_block t chk s)) by (intros E; apply Hne; exact (wf_same_base _ _ _ R6 Hb Hin E)).
        pose proof (wf_blocks_disj _ _ _ R6 Hb Hin Hbb) as X. unfold blocks_apart in X. cbn [seq_block b_base b_size] in X. rewrite bitmap_le_storage in X. fold nb in X. lia. }
      set (wa := set_blocks wv1 bl1).
      assert (HIa : Inv wa (kill slv [h]) (kill_vals σv [h]) n).
      { assert (Hbase : hbases (SSeq t chk s) (ASeq t chk vs old) = [s_ptr s]) by (unfold hbases; cbn [hblocks]; destruct (N.eqb_spec (s_cap s) 0); [lia|reflexivity]).
        apply (inv_drop wv1 slv σv n wa h _ _ HI1 Hah).
        - apply wf_del, R6.
        - rewrite Hbase. intros b Hb Hnb. split; [|reflexivity]. apply Hin1. split; [exact Hb|]. intros ->. apply Hnb. left. reflexivity.
        - rewrite Hbase. intros b Hb Hh. apply Hin1 in Hb. split; [apply Hb|]. intros [E|[]]. apply (proj2 Hb). symmetry. apply (wf_same_base _ _ _ R6 Hin (proj1 Hb)). exact E. }
      set (bmb := if nb =? 0 then [] else [own_block (bm_ty nb) ba (VFix bytes)]).
      set (wb := set_blocks wv1 (bmb ++ bl1)).
      assert (Hdd : at_h (kill slv [h]) (kill_vals σv [h]) h SDead ADead) by exact (at_h_update_r slv σv h SDead ADead _ _ Hah).
      assert (Hhb : hblocks (SOwn (bm_ty nb) ba) (AOwn (bm_ty nb) (VFix bytes)) = bmb) by reflexivity.
      assert (HIb : Inv wb (update (kill slv [h]) h (SOwn (bm_ty nb) ba)) (replace_nth (kill_vals σv [h]) h (AOwn (bm_ty nb) (VFix bytes))) n).
      { apply (inv_change wa (kill slv [h]) (kill_vals σv [h]) n wb [] [] h SDead ADead _ _ HIa (Forall2_nil _) Hdd); auto.
        - cbn [wb set_blocks w_blocks]. unfold bmb. destruct (N.eqb_spec nb 0) as [En|En]; [apply wf_del, R6|]. apply wf_cons; [apply wf_del, R6|cbn; unfold ba; lia|cbn [own_block b_size]; rewrite Hbv; lia|cbn [own_block b_base b_size]; rewrite Hbv; unfold ba; lia|].
          intros c Hc0. specialize (Hap c Hc0). unfold blocks_apart. cbn [own_block b_base b_size]. rewrite Hbv. unfold ba. lia.
        - intros b Hb _. split; [apply in_or_app; right; exact Hb|reflexivity].
        - cbn [rep]. split; [reflexivity|]. split; [apply bm_wf; lia|]. split; [|rewrite Hhb; intros b Hb; apply in_or_app; left; exact Hb].
          split; [apply len_rd|]. split; [|reflexivity]. rewrite Hbv. split; [unfold ba; lia|]. split; [apply N.mod_1_r|]. split; [unfold ba; lia|].
          destruct (N.eqb_spec nb 0) as [En|En]; [left; exact En|right]. exists (own_block (bm_ty nb) ba (VFix bytes)). split; [cbn [wb set_blocks w_blocks]; unfold bmb; destruct (N.eqb_spec nb 0); [contradiction|left; reflexivity]|].
          cbn [own_block b_base b_size]. rewrite Hbv. lia.
        - unfold hbases. rewrite Hhb. unfold bmb. destruct (N.eqb_spec nb 0) as [En|En]; cbn [map]; intros y Hy; [contradiction|]. destruct Hy as [<-|[]]. right. intros b Hb E. cbn [own_block b_base] in E.
          pose proof (wf_block_in _ _ (wf_del _ (s_ptr s) R6) Hb) as (_ & Hpos & _). specialize (Hap b Hb). unfold ba in E. lia.
        - intros b Hb Hh. cbn [wb set_blocks w_blocks] in Hb. apply in_app_or in Hb. destruct Hb as [Hb|Hb]; [|right; split; [exact Hb|intros []]].
          unfold bmb in Hb. destruct (nb =? 0); [contradiction|]. destruct Hb as [<-|[]]. discriminate. }
      assert (Es2 : update (kill slv [h]) h (SOwn (bm_ty nb) ba) = slv2).
      { apply nth_ext'. intros j. unfold slv2. cbn [kill fold_left]. rewrite !nth_update. destruct (Nat.eq_dec h j) as [<-|]; [destruct (nth_error slv h)|]; reflexivity. }
      assert (Eσ2 : replace_nth (kill_vals σv [h]) h (AOwn (bm_ty nb) (VFix bytes)) = σv2).
      { unfold σv2. change (@replace_nth aval) with (@update aval). apply nth_ext'. intros j. rewrite !nth_update, nth_kill_aval. destruct (Nat.eq_dec h j) as [<-|Hne].
        - destruct (in_dec _ _ _); destruct (nth_error σv h); reflexivity.
        - destruct (in_dec Nat.eq_dec j [h]) as [[E|[]]|]; [congruence|reflexivity]. }
      rewrite Es2, Eσ2 in HIb.
      assert (Htot : total t vs * sp_align t <= s_cap s * sp_align t) by (rewrite <- P2; nia).
      assert (HIc : Inv (set_blocks wb (add_tiles t (s_ptr s) vs (w_blocks wb))) slv3 σv3 n).
      { apply (inv_elems t n Hwf Hz vs (s_ptr s) wb slv2 σv2 HIb W1 Hmod); [lia|exact Hel|].
        intros b Hb. cbn [wb set_blocks w_blocks] in Hb. apply in_app_or in Hb. destruct Hb as [Hb|Hb].
        - unfold bmb in Hb. destruct (nb =? 0); [contradiction|]. destruct Hb as [<-|[]]. right. cbn [own_block b_base]. unfold ba. lia.
        - specialize (Hap b Hb). lia. }
      set (tiles := tiles_of t (s_ptr s) vs ++ bmb).
      set (g := [(seq_block t chk s', tiles)]).
      assert (Eg : concat (gs ++ [g]) = concat gs ++ [(seq_block t chk s, tiles)]) by (rewrite concat_app; cbn [concat g]; reflexivity).
      set (wc := mkW (w_mem wv1) (add_tiles t (s_ptr s) vs (w_blocks wb)) (outside (concat (gs ++ [g])) (w_alloc w1)) (w_tick wv1) (w_log wv1)).
      assert (Hinc : forall c, In c (w_blocks wc) <-> In c tiles \/ (In c (w_blocks wv1) /\ c <> seq_block t chk s)).
      { intros c. cbn [wc w_blocks]. rewrite in_add_tiles. cbn [wb set_blocks w_blocks]. unfold tiles. rewrite !in_app_iff, Hin1. tauto. }
      exists wc, g. split; [|split; [|split]].
      + split; [exact R1|]. split; [exact R2|]. split; [exact R3|]. split; [reflexivity|]. split; [exact R5|]. split; [apply HIc|]. rewrite Eg.
        eapply divided_split; [exact R7|exact Hin|reflexivity| |exact Hinc]. intros c Hc0. cbn [seq_block b_base b_size]. rewrite bitmap_le_storage. fold nb. unfold tiles in Hc0. apply in_app_or in Hc0. destruct Hc0 as [Hc0|Hc0].
        * destruct (tiles_in t Hwf vs (s_ptr s) c Hc0) as (T1 & T2 & T3). split; [exact T1|]. lia.
        * unfold bmb in Hc0. destruct (nb =? 0); [contradiction|]. destruct Hc0 as [<-|[]]. split; [reflexivity|]. cbn [own_block b_base b_size]. rewrite Hbv. unfold ba. lia.
      + rewrite Eg, map_app. cbn [map fst]. apply NoDup_app_snoc; auto.
      + eapply inv_world; [exact HIc|reflexivity|reflexivity].
      + right. split; [exact Hc|]. split; [rewrite bitmap_le_storage; exact Hst|]. split; [exact Hmod|]. exists tiles. split; [reflexivity|]. split.
        * intros c Hc0. unfold tiles in Hc0. apply in_app_or in Hc0. destruct Hc0 as [Hc0|Hc0].
          -- destruct (tile_owner t Hwf Hz vs (s_ptr s) slv2 σv2 (w_mem wv1) c) as (z & u & v & Z1 & Z2 & Z3); [congruence|exact Hel|exact Hc0|].
             exists z, u, v. split; [right; unfold ids; rewrite <- Hl2; exact Z1|]. split; [exact Z2|exact Z3].
          -- exists h, (SOwn (bm_ty nb) ba), (AOwn (bm_ty nb) (VFix bytes)). split; [left; reflexivity|]. split; [|rewrite Hhb; exact Hc0].
             destruct Hah2 as [A B]. split; [unfold slv3; rewrite nth_error_app1 by lia; exact A|unfold σv3; rewrite nth_error_app1 by lia; exact B].
        * intros z u v c Hz0 Hc0. destruct (at_h_new t slv2 σv2 ltac:(congruence) vs (s_ptr s) z u v Hz0) as [Hz1|(Hz1 & p & -> & Hz2)].
          -- destruct (at_h_update _ _ _ _ _ _ _ _ Hz1) as [[Hz2 Hne]|(-> & -> & ->)]; [left; auto|]. right. unfold tiles. apply in_or_app. right. rewrite Hhb in Hc0. exact Hc0.
          -- right. unfold tiles. apply in_or_app. left. apply Hz2, Hc0. }
  set (x := mkX h t chk s' (Some (seq_iter s)) ids). set (a := mkA h t chk (old ++ starts t vs 0 ++ [total t vs]) ids (combine ids vs) true).
  assert (Hcomb : map fst (combine ids vs) = ids) by (apply map_fst_combine; unfold ids; now rewrite seq_length).
  assert (Hcomb2 : map snd (combine ids vs) = vs) by (apply map_snd_combine; unfold ids; now rewrite seq_length).
  assert (Hids : forall z, In z ids <-> (length slv <= z < length slv + length vs)%nat) by (intros z; unfold ids; rewrite in_seq; reflexivity).
  assert (Hhx : hidden (xs ++ [Some x]) = hidden xs ++ h :: ids) by (rewrite hidden_snoc; reflexivity).
  assert (Hal' : length (kill_vals σv (hidden xs)) = length slv) by (change (kill_vals σv (hidden xs)) with (kills ADead σv (hidden xs)); rewrite kills_length; auto).
  exists (replace_nth (kill_vals σv (hidden xs)) h ADead ++ repeat ADead (length vs)), (ax ++ [Some a]), [].
  split; [|split].
  - unfold a, ids. rewrite <- Hal'. eapply XS_begin. exact Hσ.
  - rewrite app_nil_r. pose proof HR1 as (_ & _ & <- & _). rewrite Q5. apply HR.
  - exists wv3, slv3, σv3, (gs ++ [g]). split; [exact HR3|]. split; [exact HG3|]. split; [exact HI3|]. rewrite Hhx.
    assert (Hkeep : forall z u v, z <> h -> at_h slv σv z u v -> at_h slv3 σv3 z u v).
    { intros z u v Hne Hz0. assert (Hz1 : at_h slv2 σv2 z u v) by (apply at_h_update_l; auto). destruct Hz1 as [A B].
      assert (z < length slv2)%nat by (apply nth_error_Some; congruence). split; [unfold slv3; rewrite nth_error_app1 by lia; exact A|unfold σv3; rewrite nth_error_app1 by lia; exact B]. }
    split; [|split; [|split; [|split]]].
    + symmetry. pose proof (kills_app_all SDead slv2 (owns t (s_ptr s) vs) (hidden xs) h ltac:(rewrite Hl2; exact HH) ltac:(lia)) as HK.
      rewrite Hl2 in HK. rewrite owns_length in HK. unfold slv3, ids. etransitivity; [exact HK|]. f_equal.
      apply nth_ext'. intros j. change (kill slv (hidden xs)) with (kills SDead slv (hidden xs)). rewrite !nth_update, !nth_kills. unfold slv2. rewrite nth_update. destruct (Nat.eq_dec h j) as [<-|]; [|reflexivity].
      destruct (in_dec _ _ _); destruct (nth_error slv h); reflexivity.
    + symmetry. pose proof (kills_app_all ADead σv2 (map (AOwn t) vs) (hidden xs) h ltac:(intros z Hz0; rewrite Hl2', <- Hlen; auto) ltac:(lia)) as HK.
      rewrite Hl2' in HK. rewrite map_length in HK. rewrite <- Hlen in HK. unfold σv3, ids. etransitivity; [exact HK|]. f_equal.
      change (@replace_nth aval) with (@update aval). apply nth_ext'. intros j. change (kill_vals σv (hidden xs)) with (kills ADead σv (hidden xs)). rewrite !nth_update, !nth_kills. unfold σv2. change (@replace_nth aval) with (@update aval). rewrite nth_update.
      destruct (Nat.eq_dec h j) as [<-|]; [|reflexivity]. destruct (in_dec _ _ _); destruct (nth_error σv h); reflexivity.
    + apply nodup_app; [exact HN| |].
      * constructor; [|apply seq_NoDup]. intros X. apply Hids in X. lia.
      * intros z Hz0 [<-|Hz1]; [contradiction|]. apply Hids in Hz1. specialize (HH z Hz0). lia.
    + intros z Hz0. unfold slv3. rewrite app_length, owns_length, Hl2. apply in_app_or in Hz0. destruct Hz0 as [Hz0|[<-|Hz0]]; [specialize (HH z Hz0); lia|lia|apply Hids in Hz0; lia].
    + destruct HE as (L1 & L2 & HE). split; [rewrite !app_length, L1; reflexivity|]. split; [rewrite !app_length, L2; reflexivity|].
      unfold division in *. intros k y b g' Hy Hb Hg'. rewrite nth_snoc in Hy. rewrite nth_snoc in Hb. rewrite nth_snoc in Hg'. rewrite <- L1 in Hb. rewrite <- L2 in Hg'.
      destruct (Nat.eq_dec k (length xs)) as [->|Hne].
      * injection Hy as <-. injection Hb as <-. injection Hg' as <-. cbn [entry].
        split; [repeat split; cbn [x_h x_t x_chk x_todo x_s a_h a_t a_chk a_left x a s' s_len s_occ]; auto|].
        split; [|split; [|split; [|split]]].
        -- unfold iter_ok. cbn [a_open a x_it x x_t a_left]. exists (seq_iter s). split; [reflexivity|]. cbn [seq_iter it_len it_ptr]. split; [unfold len; rewrite combine_length; unfold ids; rewrite seq_length, Nat.min_id; exact Hsn|].
           rewrite Hcomb2. split; [apply Hit|]. unfold ids. rewrite <- Hl2. apply pending_new. congruence.
        -- exists bytes. cbn [x x_h x_t x_chk x_s s' s_cap s_ptr a a_old]. fold nb ba. split; [|split].
           ++ destruct Hah2 as [A B]. split; [unfold slv3; rewrite nth_error_app1 by lia; exact A|unfold σv3; rewrite nth_error_app1 by lia; exact B].
           ++ intros c Hc0. unfold bytes in Hc0. apply In_nth with (d := Un) in Hc0. destruct Hc0 as (j & Hj & <-).
              pose proof (len_rd (w_mem wv1) ba nb) as Hl. unfold len in Hl. assert (Hjn : N.of_nat j < nb) by (rewrite <- Hl; lia). clear Hj Hl. replace j with (N.to_nat (N.of_nat j)) by lia. rewrite nth_rd by exact Hjn.
              destruct P4 as [((E0 & _) & _)|(Hc & _ & _ & _ & _ & Hby)]; [unfold nb, bm_bytes in Hjn; rewrite E0 in Hjn; change (bitmap_bytes 0) with 0 in Hjn; destruct chk; lia|].
              unfold nb, bm_bytes in Hjn. destruct chk; [|lia]. apply Hby; [reflexivity|exact Hjn].
           ++ intros Hchk. specialize (Hbits' Hchk). unfold bytes, nb, ba. rewrite Hchk. cbn [bm_bytes]. rewrite <- P2.
              destruct (N.eq_dec (s_cap s) 0) as [E0|E0]; [|apply bits_bm; [exact Hbits'|lia]]. rewrite E0. intros o b0 _ Hn. destruct (N.to_nat (o / 8)); discriminate.
        -- unfold store_at. cbn [x x_h x_t x_chk x_s s' s_cap s_ptr a a_ids]. destruct Hg as [Hg|(G1 & G2 & G3 & tiles & G4 & G5 & G6)]; [left; exact Hg|right].
           split; [exact G1|]. split; [exact G2|]. split; [exact G3|]. exists tiles. split; [exact G4|].
           intros z u v q Hz0 Hq Hin. apply in_map_iff in Hin. destruct Hin as (c & <- & Hc0). destruct (G5 c Hc0) as (z' & u' & v' & Z1 & Z2 & Z3).
           rewrite (proj1 (proj2 (proj2 (proj2 HI3))) z z' u v u' v' (b_base c) Hz0 Z2 Hq); [exact Z1|]. unfold hbases. apply in_map. exact Z3.
        -- intros z Hz0. exact Hz0.
        -- cbn [x a a_ids x_todo x_t]. intros z Hz0. split; [|auto]. right. apply Hids in Hz0. unfold slv3. rewrite nth_error_app2 by lia.
           assert (Hzl : (z - length slv2 < length vs)%nat) by lia. revert Hzl. generalize (z - length slv2)%nat as j. generalize (s_ptr s) as p0. clear. induction vs as [|v vs IH]; intros p0 [|j] Hj; cbn in *; try lia; [eauto|]. apply IH. lia.
      * pose proof (HE k y b g' Hy Hb Hg') as Hsj. destruct y as [y|], b as [b|]; cbn [entry] in *; auto.
        assert (Hyh : forall z, z = x_h y \/ In z (x_todo y) -> In z (hidden xs)) by (intros z Hz0; apply in_hidden; eauto).
        pose proof Hsj as (_ & _ & _ & _ & _ & T6).
        eapply sess_keep; [exact Hsj|exact Hyh| | | |].
        -- intros z u v Hz0. apply Hkeep. intros ->. contradiction.
        -- intros i Hi. left. destruct (T6 i Hi) as [A1 _]. assert (Hil : (i < length slv)%nat) by (apply nth_error_Some; destruct A1 as [E|[p E]]; congruence).
           unfold slv3. rewrite nth_error_app1 by lia. unfold slv2. rewrite nth_update. destruct (Nat.eq_dec h i) as [<-|]; [|reflexivity]. exfalso. destruct Hah as [Hah _]. destruct A1 as [E|[p E]]; congruence.
        -- intros tl Htl Hown z u v q Hz0 Hq Hin. apply in_map_iff in Hin. destruct Hin as (c & <- & Hc0).
           destruct (in_tiles gs k g' tl c Hg' Htl Hc0) as (g0 & Hg0 & Hcg).
           pose proof HR3 as (_ & _ & _ & _ & R5 & R6 & R7).
           assert (Hg0' : In g0 (concat (gs ++ [g]))) by (rewrite concat_app; apply in_or_app; left; exact Hg0).
           assert (Hcv : In c (w_blocks wv3)) by (apply R7; right; eauto).
           assert (X : In c (hblocks u v)) by (eapply (hblock_base wv3); [exact R6|exact (proj1 (proj2 (proj2 HI3)) _ _ _ Hz0)|exact Hcv|exact Hq]).
           destruct Hg as [(E0 & _ & _)|(G1 & _ & _ & tiles & G4 & _ & G6)].
           ++ destruct (at_h_new t slv2 σv2 ltac:(congruence) vs (s_ptr s) z u v Hz0) as [Hz1|(Hz1 & p & -> & _)].
              ** destruct (at_h_update _ _ _ _ _ _ _ _ Hz1) as [[Hz2 _]|(-> & -> & ->)]; [eapply Hown; [exact Hz2|exact Hq|]; apply in_map_iff; eauto|].
                 exfalso. cbn [hblocks] in X. rewrite Hbv in X. unfold nb, bm_bytes in X. rewrite E0 in X. destruct chk; cbn in X; contradiction.
              ** exfalso. destruct P4 as [(_ & Ev)|(Hc & _)]; [|lia]. rewrite Ev in Hz1. cbn [length] in Hz1. lia.
           ++ destruct (G6 z u v c Hz0 X) as [[Hz1 _]|Hct]; [eapply Hown; [exact Hz1|exact Hq|]; apply in_map_iff; eauto|]. exfalso.
              assert (Hgn : In (seq_block t chk s', tiles) (concat (gs ++ [g]))) by (rewrite concat_app, G4; apply in_or_app; right; left; reflexivity).
              pose proof (part_of_one _ _ _ _ _ c R5 R6 R7 Hg0' Hgn Hcg Hct) as Ef. cbn [fst] in Ef.
              rewrite concat_app, map_app, G4 in HG3. cbn [concat app map fst] in HG3. apply NoDup_remove_2 in HG3. apply HG3. rewrite app_nil_r, <- Ef. apply in_map. exact Hg0.
        -- intros i Hi Hi2. apply in_app_or in Hi2. destruct Hi2 as [Hi2|Hi2]; [exact Hi2|exfalso].
           destruct (T6 i Hi) as [A1 _]. assert (Hil : (i < length slv)%nat) by (apply nth_error_Some; destruct A1 as [E|[p E]]; congruence).
           destruct Hi2 as [<-|Hi2]; [destruct Hah as [Hah _]; destruct A1 as [E|[p E]]; congruence|]. apply Hids in Hi2. lia.
Qed.
