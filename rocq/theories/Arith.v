(** Arith.v - lemmas on rounding, masks, wrapping arithmetic, little-endian integers. *)
From Coq Require Export ZArith ZifyBool ZifyNat ZifyN.
From Verif Require Export Spec.
Ltac Zify.zify_post_hook ::= Z.div_mod_to_equations.

Global Arguments N.add : simpl never.
Global Arguments N.sub : simpl never.
Global Arguments N.mul : simpl never.
Global Arguments N.div : simpl never.
Global Arguments N.modulo : simpl never.
Global Arguments N.pow : simpl never.
Global Arguments N.land : simpl never.
Global Arguments N.lor : simpl never.
Global Arguments N.leb : simpl never.
Global Arguments N.ltb : simpl never.
Global Arguments N.eqb : simpl never.
Global Arguments N.max : simpl never.
Global Arguments N.min : simpl never.
Global Arguments N.to_nat : simpl never.
Global Arguments N.of_nat : simpl never.

Lemma W_eq : W = 18446744073709551616. Proof. reflexivity. Qed.
Lemma ISIZE_eq : ISIZE_MAX = 9223372036854775807. Proof. reflexivity. Qed.

Lemma pow2_pos a : pow2 a -> 0 < a.
Proof. intros (k & Hk & ->). apply N.neq_0_lt_0, N.pow_nonzero. lia. Qed.
Lemma pow2_le a : pow2 a -> a <= 2 ^ 29.
Proof. intros (k & Hk & ->). apply N.pow_le_mono_r; lia. Qed.
Lemma pow2_lt_W a : pow2 a -> a < W.
Proof. intros H. apply pow2_le in H. rewrite W_eq. change (2^29) with 536870912 in H. lia. Qed.
Lemma pow2_1 : pow2 1. Proof. exists 0; split; [lia|reflexivity]. Qed.
Lemma pow2_div a b : pow2 a -> pow2 b -> a <= b -> exists c, b = a * c /\ 0 < c.
Proof.
  intros (k & Hk & ->) (j & Hj & ->) H.
  assert (k <= j) by (apply (N.pow_le_mono_r_iff 2); lia).
  exists (2 ^ (j - k)). split.
  - rewrite <- N.pow_add_r. f_equal. lia.
  - apply N.neq_0_lt_0, N.pow_nonzero. lia.
Qed.
Lemma mod_mul_0 x a c : a <> 0 -> c <> 0 -> x mod (a * c) = 0 -> x mod a = 0.
Proof.
  intros Ha Hc H. apply N.mod_divide in H; [|nia]. destruct H as [q ->].
  apply N.mod_divide; auto. exists (q * c). nia.
Qed.
Lemma pow2_mod x a b : pow2 a -> pow2 b -> a <= b -> x mod b = 0 -> x mod a = 0.
Proof.
  intros Ha Hb Hab H. destruct (pow2_div a b Ha Hb Hab) as (c & -> & Hc).
  pose proof (pow2_pos _ Ha). eapply mod_mul_0; eauto; lia.
Qed.
Lemma pow2_max a b : pow2 a -> pow2 b -> pow2 (N.max a b).
Proof. intros. destruct (N.max_spec a b) as [[_ ->]|[_ ->]]; auto. Qed.

Lemma add_mod_0 a b m : m <> 0 -> a mod m = 0 -> b mod m = 0 -> (a + b) mod m = 0.
Proof. intros Hm Ha Hb. rewrite N.add_mod by auto. rewrite Ha, Hb. apply N.mod_0_l; auto. Qed.
Lemma mul_mod_0 a b m : m <> 0 -> b mod m = 0 -> (a * b) mod m = 0.
Proof. intros Hm Hb. rewrite N.mul_mod by auto. rewrite Hb, N.mul_0_r. apply N.mod_0_l; auto. Qed.

(** ** up *)
Lemma up_ge x al : 0 < al -> x <= up x al.
Proof. unfold up; intros. nia. Qed.
Lemma up_lt x al : 0 < al -> up x al < x + al.
Proof. unfold up; intros. nia. Qed.
Lemma up_mod x al : 0 < al -> up x al mod al = 0.
Proof. unfold up; intros. apply N.mod_mul. lia. Qed.
Lemma up_mono x y al : 0 < al -> x <= y -> up x al <= up y al.
Proof. unfold up; intros. apply N.mul_le_mono_r, N.div_le_mono; lia. Qed.
Lemma up_id x al : 0 < al -> x mod al = 0 -> up x al = x.
Proof.
  unfold up; intros H Hm. apply N.mod_divide in Hm; [|lia]. destruct Hm as [q ->].
  replace (q * al + (al - 1)) with ((al - 1) + q * al) by lia.
  rewrite N.div_add by lia. rewrite (N.div_small (al - 1)) by lia. lia.
Qed.
Lemma up_least x al y : 0 < al -> y mod al = 0 -> x <= y -> up x al <= y.
Proof. intros H Hm Hle. rewrite <- (up_id y al) by auto. apply up_mono; auto. Qed.
Lemma up_1 x : up x 1 = x.
Proof. apply up_id; [lia|apply N.mod_1_r]. Qed.
Lemma up_div x al : 0 < al -> up x al / al = (x + (al - 1)) / al.
Proof. unfold up; intros. apply N.div_mul; lia. Qed.

(** ** masks *)
Lemma mask_pow2 x k : x < W -> k <= 29 -> mask_align x (2 ^ k) = x / 2 ^ k * 2 ^ k.
Proof.
  intros Hx Hk. unfold mask_align, wrapping_sub.
  assert (Hp : 2 ^ k < W). { rewrite W_eq. assert (2 ^ k <= 2 ^ 29) by (apply N.pow_le_mono_r; lia).
    change (2^29) with 536870912 in *. lia. }
  assert (Hp0 : 0 < 2 ^ k) by (apply N.neq_0_lt_0, N.pow_nonzero; lia).
  rewrite (N.mod_small (2 ^ k)) by auto. rewrite N.add_0_l, N.mod_small by lia.
  assert (E : W - 2 ^ k = N.shiftl (N.ones (64 - k)) k).
  { rewrite N.shiftl_mul_pow2, N.ones_equiv, <- N.sub_1_r.
    rewrite N.mul_sub_distr_r, N.mul_1_l, <- N.pow_add_r.
    replace (64 - k + k) with 64 by lia. reflexivity. }
  rewrite E, <- N.shiftl_mul_pow2, <- N.shiftr_div_pow2.
  apply N.bits_inj. intros i. rewrite N.land_spec.
  destruct (N.lt_ge_cases i k) as [Hi|Hi].
  - rewrite !N.shiftl_spec_low by lia. apply andb_false_r.
  - rewrite !N.shiftl_spec_high' by lia. rewrite N.shiftr_spec'.
    replace (i - k + k) with i by lia.
    destruct (N.lt_ge_cases i 64) as [H64|H64].
    + rewrite N.ones_spec_low by lia. apply andb_true_r.
    + rewrite N.ones_spec_high by lia. rewrite andb_false_r. symmetry.
      assert (Hl : x < 2 ^ i).
      { eapply N.lt_le_trans; [exact Hx|]. unfold W. apply N.pow_le_mono_r; lia. }
      rewrite <- (N.mod_small x (2 ^ i)) by auto. apply N.mod_pow2_bits_high. lia.
Qed.

Lemma pow2_W_mod al : pow2 al -> W mod al = 0.
Proof.
  intros (k & Hk & ->). unfold W. replace 64 with (64 - k + k) by lia.
  rewrite N.pow_add_r. apply N.mod_mul, N.pow_nonzero. lia.
Qed.

Lemma checked_add_up x al :
  pow2 al ->
  (exists y, checked_add x (al - 1) = Some y /\ mask_align y al = up x al /\ up x al < W) \/
  (checked_add x (al - 1) = None /\ W <= up x al).
Proof.
  intros Hal. pose proof (pow2_pos _ Hal) as Hp. pose proof (pow2_W_mod _ Hal) as HW.
  unfold checked_add. destruct (N.ltb_spec (x + (al - 1)) W) as [H|H].
  - left. exists (x + (al - 1)). split; [reflexivity|].
    destruct Hal as (k & Hk & ->). rewrite mask_pow2 by auto. split; [reflexivity|].
    unfold up. eapply N.le_lt_trans; [|exact H].
    rewrite N.mul_comm. apply N.mul_div_le. lia.
  - right. split; [reflexivity|].
    unfold up. apply N.mod_divide in HW; [|lia]. destruct HW as [q Hq]. rewrite Hq in *.
    apply N.mul_le_mono_r. apply N.div_le_lower_bound; lia.
Qed.

Lemma mask_up x al : pow2 al -> up x al < W -> mask_align (wrapping_add x (al - 1)) al = up x al.
Proof.
  intros Hal Hu. destruct (checked_add_up x al Hal) as [(y & Hy & Hm & _)|[Hn Hw]]; [|lia].
  unfold checked_add in Hy. destruct (N.ltb_spec (x + (al - 1)) W) as [H|H]; [|discriminate].
  injection Hy as <-. unfold wrapping_add. rewrite N.mod_small by auto. exact Hm.
Qed.

Lemma wadd_small a b : a + b < W -> wrapping_add a b = a + b.
Proof. intros. unfold wrapping_add. apply N.mod_small; auto. Qed.
Lemma wmul_small a b : a * b < W -> wrapping_mul a b = a * b.
Proof. intros. unfold wrapping_mul. apply N.mod_small; auto. Qed.
Lemma wsub_ge a b : b <= a -> a < W -> wrapping_sub a b = a - b.
Proof.
  intros. unfold wrapping_sub. rewrite (N.mod_small b) by lia.
  replace (a + (W - b)) with ((a - b) + 1 * W) by lia.
  rewrite N.mod_add by (rewrite W_eq; lia). apply N.mod_small. lia.
Qed.
Lemma wsub_lt a b : a < b -> b < W -> wrapping_sub a b = a + W - b.
Proof.
  intros. unfold wrapping_sub. rewrite (N.mod_small b) by lia.
  rewrite N.mod_small by lia. lia.
Qed.

(** ** array_max / sp_align *)
Lemma array_max_from l r : fold_left (fun r v => if v <? r then r else v) l r = fold_right N.max r l.
Proof.
  revert r. induction l as [|x l IH]; intros r; [reflexivity|].
  cbn [fold_left fold_right]. rewrite IH.
  assert (E : (if x <? r then r else x) = N.max x r) by (destruct (N.ltb_spec x r); lia).
  rewrite E. clear. induction l as [|y l IH]; cbn [fold_right]; [reflexivity|]. rewrite IH. lia.
Qed.
Lemma array_max_fold l : array_max l = fold_right N.max 0 l.
Proof. apply array_max_from. Qed.

Lemma len_size_pow2 k : pow2 (len_size k).
Proof.
  destruct k; cbn; [exists 0|exists 1|exists 2|exists 3|exists 3]; (split; [lia|reflexivity]).
Qed.

Lemma align_ok :
  (forall t, wf_ty t -> valign t = sp_align t /\ pow2 (sp_align t) /\ head_align t <= sp_align t /\ pow2 (head_align t)) /\
  (forall fs, wf_flds fs -> fold_right N.max 1 (falign fs) = sp_falign fs /\ pow2 (sp_falign fs) /\
                           (fs <> FNil -> all_var fs -> fold_right N.max 0 (falign fs) = sp_falign fs)).
Proof.
  apply vty_flds_ind; cbn [wf_ty wf_flds valign sp_align falign sp_falign head_align fold_right all_var].
  - intros f (H & _). repeat split; auto; lia.
  - intros f k (H & _). pose proof (len_size_pow2 k). rewrite array_max_fold; cbn [fold_right].
    split; [lia|]. split; [apply pow2_max; auto|]. split; [lia|auto].
  - intros t IH H. destruct (IH H) as (E & P & L & Q). auto.
  - intros kd hs ha fs IH ((Hha & Hhs & Hh) & Hfs & Hkd). destruct (IH Hfs) as (E & P & T).
    pose proof (pow2_pos _ Hha) as Hpos. pose proof (pow2_pos _ P) as Hpos2.
    split; [|split; [apply pow2_max; auto|split; [lia|auto]]].
    destruct kd.
    + destruct Hkd as (-> & -> & Hne & Hav). rewrite array_max_fold, T by auto. lia.
    + rewrite array_max_fold. cbn [fold_right]. rewrite <- E.
      assert (G : forall l, fold_right N.max 1 l = N.max 1 (fold_right N.max 0 l)).
      { induction l as [|x l IHl]; cbn [fold_right]; [reflexivity|]. rewrite IHl. lia. }
      rewrite G. lia.
  - split; [reflexivity|]. split; [apply pow2_1|]. intros []; reflexivity.
  - intros off f r IH [Hf Hr]. destruct (IH Hr) as (E & P & T). repeat split; auto. intros _ [].
  - intros off f r IH [Hf Hr]. destruct (IH Hr) as (E & P & T). repeat split; auto. intros _ [].
  - intros t IHt r IH [Ht Hr]. destruct (IHt Ht) as (E1 & P1 & L1 & Q1). destruct (IH Hr) as (E & P & T).
    rewrite E1, E. split; [reflexivity|]. split; [apply pow2_max; auto|].
    intros _ Hav. destruct r as [| | | |]; cbn [all_var] in Hav; try contradiction.
    + cbn. pose proof (pow2_pos _ P1). lia.
    + rewrite T; auto. discriminate.
  - intros f lf r IH (Hf & Hr). destruct (IH Hr) as (E & P & T).
    rewrite E. split; [reflexivity|]. split; [|intros _ []].
    apply pow2_max; auto. apply Hf.
Qed.
Lemma valign_sp t : wf_ty t -> valign t = sp_align t. Proof. apply align_ok. Qed.
Lemma sp_align_pow2 t : wf_ty t -> pow2 (sp_align t). Proof. apply align_ok. Qed.
Lemma sp_align_pos t : wf_ty t -> 0 < sp_align t. Proof. intros; apply pow2_pos, sp_align_pow2; auto. Qed.
Lemma head_align_le t : wf_ty t -> head_align t <= sp_align t. Proof. apply align_ok. Qed.
Lemma head_align_pow2 t : wf_ty t -> pow2 (head_align t). Proof. apply align_ok. Qed.

(** ** lists, upto *)
Lemma len_nil {A} : len (@nil A) = 0. Proof. reflexivity. Qed.
Lemma len_cons {A} (x : A) l : len (x :: l) = 1 + len l.
Proof. unfold len; cbn [length]. lia. Qed.
Lemma len_app {A} (l1 l2 : list A) : len (l1 ++ l2) = len l1 + len l2.
Proof. unfold len. rewrite app_length. lia. Qed.
Lemma len_map {A B} (f : A -> B) l : len (map f l) = len l.
Proof. unfold len. now rewrite map_length. Qed.
Lemma len_upto n : len (upto n) = n.
Proof. unfold upto. rewrite len_map. unfold len. rewrite seq_length. lia. Qed.
Lemma upto_0 : upto 0 = []. Proof. reflexivity. Qed.
Lemma upto_succ n : upto (1 + n) = 0 :: map (fun i => 1 + i) (upto n).
Proof.
  unfold upto. replace (N.to_nat (1 + n)) with (S (N.to_nat n)) by lia.
  cbn [seq map]. f_equal. rewrite <- seq_shift, !map_map. apply map_ext. intros. lia.
Qed.
Lemma in_upto i n : In i (upto n) <-> i < n.
Proof.
  unfold upto. rewrite in_map_iff. split.
  - intros (x & <- & H). apply in_seq in H. lia.
  - intros H. exists (N.to_nat i). split; [lia|]. apply in_seq. lia.
Qed.
Lemma upto_nth {A B} (h : A -> B) (d : A) l :
  map (fun i => h (nth (N.to_nat i) l d)) (upto (len l)) = map h l.
Proof.
  induction l as [|x l IH]; [reflexivity|].
  rewrite len_cons, upto_succ. cbn [map]. f_equal.
  rewrite map_map. rewrite <- IH. apply map_ext. intros i.
  replace (N.to_nat (1 + i)) with (S (N.to_nat i)) by lia. reflexivity.
Qed.
Lemma len_concat f xs : elems_ok f xs -> len (concat xs) = len xs * f_size f.
Proof.
  induction 1 as [|x xs Hx H IH]; [reflexivity|].
  cbn [concat]. rewrite len_app, len_cons, IH, Hx. lia.
Qed.

(** ** little endian *)
Lemma len_enc_le k n : length (enc_le k n) = k.
Proof. revert n; induction k as [|k IH]; intros n; cbn [enc_le length]; [reflexivity|]. now rewrite IH. Qed.
Lemma dec_enc k n : n < 256 ^ N.of_nat k -> dec_le (enc_le k n) = Some n.
Proof.
  revert n. induction k as [|k IH]; intros n H; cbn [enc_le dec_le].
  - cbn in H. f_equal. change (256 ^ N.of_nat 0) with 1 in H. lia.
  - rewrite IH.
    + f_equal. pose proof (N.div_mod' n 256). lia.
    + apply N.div_lt_upper_bound; [lia|]. replace (N.of_nat (S k)) with (1 + N.of_nat k) in H by lia.
      rewrite N.pow_add_r in H. exact H.
Qed.
Lemma len_lim_W k : len_lim k <= W.
Proof. destruct k; vm_compute; discriminate. Qed.
Lemma len_size_nat k : N.of_nat (N.to_nat (len_size k)) = len_size k.
Proof. lia. Qed.
