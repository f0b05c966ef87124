(** PropsSeq.v - C15-C23, C26, C28-C31, C42, C43: sequences. *)
From Verif Require Export PropsMut SeqHist.

(** ** Examples used below *)
(** "a" etc. as initializers of Str<u8>. *)
Definition si (l : list N) : init := INew (ISized (len l) (ACopyFrom (map (fun b => [By b]) l))).
Definition sv (l : list N) : vval := VNew (VArr (map (fun b => [By b]) l)).
Lemma t_str_wf : wf_ty (TStr LU8). Proof. exact u8_ok. Qed.
Lemma t_str_nonzst : nonzst (TStr LU8).
Proof. intros v Hv. pose proof (head_size_le (TStr LU8) v u8_ok Hv) as E. change (head_size (TStr LU8)) with 1 in E. lia. Qed.
Lemma t_ex_nonzst : nonzst t_ex.
Proof. intros v Hv. pose proof (head_size_le t_ex v t_ex_wf Hv) as E. change (head_size t_ex) with 16 in E. lia. Qed.
Definition run_seq (t : vty) (chk : bool) (is_ : list init) : world * sq :=
  match seq_extend t chk is_ (w_start, seq_new t) with Ok _ x => x | _ => (w_start, seq_new t) end.

(** An initializer that refers to nothing can be pushed to any sequence. *)
Definition closed (t : vty) (i : init) : Prop := iwt t i /\ ibases t i = [] /\ forall bl bl' m D n, isrc bl bl' m D n t i.
Lemma closed_ready w t chk s i : closed t i -> push_ready w t chk s i.
Proof. intros (H1 & H2 & H3). split; [exact H1|]. split; [rewrite H2; constructor|apply H3]. Qed.
Lemma closed_si l : len l < 256 -> closed (TStr LU8) (si l).
Proof.
  intros Hl. split; [|split; [reflexivity|intros; exact I]]. cbn. unfold elems_ok. rewrite Forall_map, Forall_forall.
  repeat split; auto.
Qed.
Lemma closed_ex : closed t_ex i_ex.
Proof.
  split; [apply i_ex_usable|]. split; [reflexivity|]. intros. cbn. repeat split.
Qed.
Lemma run_seq_hist t chk is_ : wf_ty t -> nonzst t -> Forall (closed t) is_ ->
  match seq_extend t chk is_ (w_start, seq_new t) with Ok _ _ => True | _ => False end ->
  hist t chk (fst (run_seq t chk is_)) (snd (run_seq t chk is_)) is_.
Proof.
  intros Hwf Hz Hc Hok.
  assert (G : forall l w s pre, hist t chk w s pre -> Forall (closed t) l ->
     match seq_extend t chk l (w, s) with Ok _ (w', s') => hist t chk w' s' (pre ++ l) | Panic _ => True | UB _ => True end).
  { induction l as [|i l IH]; intros w s pre H Hl; unfold seq_extend in *; cbn [for_each]; [unfold ret; now rewrite app_nil_r|].
    unfold bind. inversion Hl as [|? ? H1 H2]; subst. pose proof (closed_ready w t chk s i H1) as Hr.
    destruct (seq_push t chk i (w, s)) as [[] [w1 s1]|[w1 s1]|] eqn:E; auto.
    specialize (IH w1 s1 (pre ++ [i]) (H_push t chk w s pre i w1 s1 H Hr E) H2). rewrite <- app_assoc in IH. exact IH. }
  specialize (G is_ w_start (seq_new t) [] (H_new t chk w_start w_start_ok) Hc). unfold run_seq.
  destruct (seq_extend t chk is_ (w_start, seq_new t)) as [u [w' s']| |]; [exact G|contradiction|contradiction].
Qed.
(** Three strings; two structs. *)
Lemma h_strs chk : hist (TStr LU8) chk (fst (run_seq (TStr LU8) chk [si [104;105]; si []; si [97;98;99]]))
  (snd (run_seq (TStr LU8) chk [si [104;105]; si []; si [97;98;99]])) [si [104;105]; si []; si [97;98;99]].
Proof.
  apply run_seq_hist; [apply u8_ok|apply t_str_nonzst| |destruct chk; vm_compute; exact I].
  repeat constructor; apply closed_si; reflexivity.
Qed.
Lemma h_structs chk : hist t_ex chk (fst (run_seq t_ex chk [i_ex; i_ex])) (snd (run_seq t_ex chk [i_ex; i_ex])) [i_ex; i_ex].
Proof.
  apply run_seq_hist; [apply t_ex_wf|apply t_ex_nonzst| |destruct chk; vm_compute; exact I].
  repeat constructor; apply closed_ex.
Qed.

(** ** C15 *)
(** len() is the number of elements and iterating yields exactly the elements, in order; the
    sequence behaves like the list [vs] that the operations describe. *)
Theorem C15_seq_is_list : forall t chk w s vs old,
  wf_ty t -> nonzst t -> shist t chk w s vs old ->
  seq_len s = len vs /\ seq_contents t s w = Ok vs w.
Proof.
  intros t chk w s vs old Hwf Hz H. destruct (shist_inv t chk w s vs old Hwf Hz H) as (Hat & Hbl & _).
  split; [apply Hat|]. eapply seq_contents_ok; eauto.
Qed.
(** For pushes alone: the pushed values in order, one for each push that returned. *)
Theorem C15_pushed_values : forall t chk w s is_,
  wf_ty t -> nonzst t -> hist t chk w s is_ ->
  exists vs, map (ival t) is_ = map Some vs /\ seq_len s = len is_ /\ seq_contents t s w = Ok vs w.
Proof.
  intros t chk w s is_ Hwf Hz H. destruct (hist_shist t chk w s is_ Hwf Hz H) as (vs & Hi & Hs).
  destruct (C15_seq_is_list t chk w s vs [] Hwf Hz Hs) as [H1 H2]. exists vs. split; [exact Hi|]. split; [|exact H2].
  rewrite H1. apply (ivalues_len t is_ vs Hi).
Qed.
(** A push from any such state cannot fail for any reason other than a panic (no undefined
    behaviour), so the histories go on. *)
Theorem C15_push_defined : forall t chk w s vs old i,
  wf_ty t -> nonzst t -> shist t chk w s vs old -> push_ready w t chk s i ->
  match seq_push t chk i (w, s) with
  | Ok _ (w', s') => exists v, ival t i = Some v /\ shist t chk w' s' (vs ++ [v]) old
  | Panic (w', s') => shist t chk w' s' vs old
  | UB _ => False
  end.
Proof.
  intros t chk w s vs old i Hwf Hz H Hr. destruct (shist_inv t chk w s vs old Hwf Hz H) as (Hat & Hbl & _).
  pose proof (push_inv_ok t chk w s i vs Hwf Hz Hbl Hat Hr) as HP.
  destruct (seq_push t chk i (w, s)) as [[] [w' s']|[w' s']|] eqn:E; [| |exact HP].
  - destruct HP as (v & Ev & _). exists v. split; [exact Ev|]. eapply S_push; eauto.
  - eapply S_fail; eauto.
Qed.
Example C15_meets : exists w s vs old, wf_ty t_ex /\ nonzst t_ex /\ shist t_ex true w s vs old /\ vs = [v_ex; v_ex].
Proof.
  destruct (hist_shist t_ex true _ _ _ t_ex_wf t_ex_nonzst (h_structs true)) as (vs & Hi & Hs).
  eexists _, _, vs, []. split; [apply t_ex_wf|]. split; [apply t_ex_nonzst|]. split; [exact Hs|].
  apply (ivalues_inj t_ex [i_ex; i_ex]); [exact Hi|]. reflexivity.
Qed.

(** ** C16 *)
Definition ceil_div (n d : N) : N := (n + (d - 1)) / d.
Definition sum (l : list N) : N := fold_right N.add 0 l.
Lemma ceil_div_spec n d : 0 < d -> n <= ceil_div n d * d < n + d.
Proof. intros Hd. unfold ceil_div. pose proof (N.div_mod (n + (d - 1)) d ltac:(lia)). pose proof (N.mod_lt (n + (d - 1)) d ltac:(lia)). nia. Qed.
Lemma total_sum t vs : total t vs = sum (map (fun v => ceil_div (vsize t v) (sp_align t)) vs).
Proof. induction vs as [|v vs IH]; [reflexivity|]. cbn [total map sum fold_right]. now rewrite IH. Qed.

(** offset() is the sum of the sizes of the elements, each rounded up to offsets. *)
Theorem C16_offset_is_cumulative : forall t chk w s vs old,
  wf_ty t -> nonzst t -> shist t chk w s vs old ->
  seq_offset s = sum (map (fun v => ceil_div (vsize t v) (sp_align t)) vs).
Proof.
  intros t chk w s vs old Hwf Hz H. destruct (shist_inv t chk w s vs old Hwf Hz H) as (Hat & Hbl & _).
  rewrite <- total_sum. apply Hat.
Qed.
(** The value of offset() before a push is, ever after, the offset of the pushed element. *)
Theorem C16_offset_before_push : forall t chk w s is_ i rest w' s',
  wf_ty t -> nonzst t -> hist t chk w s is_ -> hist t chk w' s' (is_ ++ i :: rest) ->
  exists v a, ival t i = Some v /\
    from_offset_unchecked t s' (seq_offset s) w' = Ok a w' /\ view t a w' = Ok v w' /\
    offset_of t s' a w' = Ok (seq_offset s) w' /\
    (chk = true -> from_offset t s' (seq_offset s) w' = Ok a w').
Proof.
  intros t chk w s is_ i rest w' s' Hwf Hz H1 H2.
  destruct (hist_inv t chk w s is_ Hwf Hz H1) as (vs & I1 & A1 & B1 & _).
  destruct (hist_inv t chk w' s' _ Hwf Hz H2) as (vs' & I2 & A2 & B2 & X2).
  destruct (ivalues_app t is_ (i :: rest) vs' I2) as (v1 & v2 & -> & J1 & J2).
  rewrite (ivalues_inj t is_ v1 vs J1 I1) in *. destruct (ivalues_cons t i rest v2 J2) as (v & v3 & -> & Ev & _).
  assert (Hk : nth_error (vs ++ v :: v3) (length vs) = Some v) by (rewrite nth_error_app2, Nat.sub_diag by lia; reflexivity).
  assert (Ho : seq_offset s = total t (firstn (length vs) (vs ++ v :: v3))).
  { rewrite firstn_app, Nat.sub_diag, firstn_all. cbn [firstn]. rewrite app_nil_r. apply A1. }
  assert (Hin : In (seq_offset s) (starts t (vs ++ v :: v3) 0)).
  { apply nth_error_In with (length vs). rewrite starts_nth; [now rewrite Ho|]. rewrite app_length. cbn. lia. }
  exists v, (s_ptr s' + seq_offset s * sp_align t). split; [exact Ev|].
  split; [eapply from_offset_unchecked_ok; eauto|].
  destruct (seq_iter_at _ _ _ _ _ Hwf B2 A2) as (_ & _ & Hobjs). cbn [seq_iter it_ptr] in Hobjs.
  pose proof (objs_nth w' t (s_ptr s') _ _ v Hobjs Hk) as Hobj. rewrite <- Ho in Hobj.
  split; [now apply view_ok|]. split; [eapply offset_of_in; eauto|]. intros ->.
  destruct (from_offset_ok w' t s' _ (seq_offset s) Hwf Hz B2 A2 (X2 eq_refl)) as [[_ E]|[E _]]; [exact E|contradiction].
Qed.
(** Pushing never moves the offset of an existing element. *)
Theorem C16_push_keeps_offsets : forall t chk w s vs old i r w' s' k a,
  wf_ty t -> nonzst t -> shist t chk w s vs old -> push_ready w t chk s i ->
  (r = Ok tt (w', s') \/ r = Panic (w', s')) -> seq_push t chk i (w, s) = r ->
  nth_error (addrs t (s_ptr s) vs) k = Some a ->
  exists o v a', offset_of t s a w = Ok o w /\ view t a w = Ok v w /\
    from_offset_unchecked t s' o w' = Ok a' w' /\ view t a' w' = Ok v w' /\ offset_of t s' a' w' = Ok o w'.
Proof.
  intros t chk w s vs old i r w' s' k a Hwf Hz H Hr Hrr E Ha.
  destruct (shist_inv t chk w s vs old Hwf Hz H) as (Hat & Hbl & _).
  assert (Hk : exists v, nth_error vs k = Some v).
  { destruct (nth_error vs k) as [v|] eqn:Ev; [eauto|]. apply nth_error_None in Ev. assert (nth_error (addrs t (s_ptr s) vs) k = None); [|congruence].
    apply nth_error_None. unfold addrs. rewrite map_length, starts_len. exact Ev. }
  destruct Hk as [v Hk]. pose proof (nth_addrs t (s_ptr s) vs k v Hk) as Ha'. rewrite Ha in Ha'. injection Ha' as ->.
  assert (Hin : In (total t (firstn k vs)) (starts t vs 0)).
  { apply nth_error_In with k. rewrite starts_nth; [reflexivity|]. apply nth_error_Some. congruence. }
  assert (Hex : exists ext, seq_at w' t chk s' (vs ++ ext) /\ wf_blocks (w_blocks w')).
  { pose proof (push_inv_ok t chk w s i vs Hwf Hz Hbl Hat Hr) as HP. rewrite E in HP. destruct Hrr as [->| ->].
    - destruct HP as (v' & _ & P1 & P2 & _). eauto.
    - destruct HP as (P1 & P2 & _). exists []. rewrite app_nil_r. auto. }
  destruct Hex as (ext & Hat' & Hbl').
  assert (Hin' : In (total t (firstn k vs)) (starts t (vs ++ ext) 0)) by (rewrite starts_app; apply in_or_app; auto).
  exists (total t (firstn k vs)), v, (s_ptr s' + total t (firstn k vs) * sp_align t).
  destruct (seq_iter_at _ _ _ _ _ Hwf Hbl Hat) as (_ & _ & Hob). cbn [seq_iter it_ptr] in Hob.
  destruct (seq_iter_at _ _ _ _ _ Hwf Hbl' Hat') as (_ & _ & Hob'). cbn [seq_iter it_ptr] in Hob'.
  split; [eapply offset_of_in; eauto|]. split; [apply view_ok; [auto|]; eapply objs_nth; eauto|].
  split; [eapply from_offset_unchecked_ok; eauto|]. split; [|eapply offset_of_in; eauto].
  apply view_ok; [auto|]. assert (Hk' : nth_error (vs ++ ext) k = Some v) by (rewrite nth_error_app1; [exact Hk|]; apply nth_error_Some; congruence).
  pose proof (objs_nth w' t (s_ptr s') _ k v Hob' Hk') as X. rewrite firstn_app in X.
  assert (Hkl : (k < length vs)%nat) by (apply nth_error_Some; congruence).
  replace (k - length vs)%nat with 0%nat in X by lia. cbn [firstn] in X. rewrite app_nil_r in X. exact X.
Qed.
(** "hi", "", "abc": the third string is at offset 4 forever. *)
Example C16_meets : exists w s w' s', hist (TStr LU8) true w s [si [104;105]; si []] /\
  hist (TStr LU8) true w' s' ([si [104;105]; si []] ++ [si [97;98;99]]) /\ seq_offset s = 4 /\ seq_offset s' = 8.
Proof.
  exists (fst (run_seq (TStr LU8) true [si [104;105]; si []])), (snd (run_seq (TStr LU8) true [si [104;105]; si []])).
  do 2 eexists. split.
  - apply run_seq_hist; [apply u8_ok|apply t_str_nonzst|repeat constructor; apply closed_si; reflexivity|vm_compute; exact I].
  - split; [apply (h_strs true)|]. split; vm_compute; reflexivity.
Qed.

(** ** C17 *)
Theorem C17_offset_of_inverse : forall t chk w s vs old k a,
  wf_ty t -> nonzst t -> shist t chk w s vs old ->
  (exists l, iter_collect t (S (N.to_nat (seq_len s))) (seq_iter s) w = Ok l w /\ nth_error l k = Some a) ->
  exists o, offset_of t s a w = Ok o w /\ from_offset_unchecked t s o w = Ok a w /\
    o = sum (map (fun v => ceil_div (vsize t v) (sp_align t)) (firstn k vs)).
Proof.
  intros t chk w s vs old k a Hwf Hz H (l & El & Ha). destruct (shist_inv t chk w s vs old Hwf Hz H) as (Hat & Hbl & _).
  pose proof (seq_iter_at _ _ _ _ _ Hwf Hbl Hat) as Hit.
  assert (Hl : s_len s = len vs) by apply Hat.
  rewrite (iter_collect_ok w t (seq_iter s) vs (S (N.to_nat (seq_len s))) Hwf Hit ltac:(unfold seq_len; rewrite Hl; unfold len; lia)) in El.
  assert (l = addrs t (s_ptr s) vs) as -> by (injection El; intros X; exact (eq_sym X)). clear El.
  assert (Hk : exists v, nth_error vs k = Some v).
  { destruct (nth_error vs k) as [v|] eqn:Ev; [eauto|]. apply nth_error_None in Ev. assert (nth_error (addrs t (s_ptr s) vs) k = None); [|congruence].
    apply nth_error_None. unfold addrs. rewrite map_length, starts_len. exact Ev. }
  destruct Hk as [v Hk]. rewrite (nth_addrs t (s_ptr s) vs k v Hk) in Ha. injection Ha as <-.
  assert (Hin : In (total t (firstn k vs)) (starts t vs 0)).
  { apply nth_error_In with k. rewrite starts_nth; [reflexivity|]. apply nth_error_Some. congruence. }
  exists (total t (firstn k vs)). split; [eapply offset_of_in; eauto|]. split; [eapply from_offset_unchecked_ok; eauto|]. apply total_sum.
Qed.
(** A reference that does not point into the occupied part of the storage is rejected. *)
Theorem C17_foreign_reference : forall t chk w s vs old e,
  wf_ty t -> nonzst t -> shist t chk w s vs old -> e < 2 ^ 64 ->
  (e < s_ptr s \/ s_ptr s + seq_offset s * sp_align t <= e) -> offset_of t s e w = Panic w.
Proof.
  intros t chk w s vs old e Hwf Hz H He Hout. destruct (shist_inv t chk w s vs old Hwf Hz H) as (Hat & Hbl & _).
  eapply offset_of_out; eauto.
Qed.
Example C17_meets : exists w s l, hist (TStr LU8) false w s [si [104;105]; si []; si [97;98;99]] /\
  iter_collect (TStr LU8) (S (N.to_nat (seq_len s))) (seq_iter s) w = Ok l w /\ nth_error l 2 = Some 4100 /\
  (* a reference into another allocation, and one just past the last element *)
  s_ptr s + seq_offset s * 1 <= 4104 /\ 77 < s_ptr s.
Proof.
  set (x := run_seq (TStr LU8) false [si [104;105]; si []; si [97;98;99]]). exists (fst x), (snd x), [4096; 4099; 4100].
  split; [apply (h_strs false)|]. split; [|vm_compute; repeat split; discriminate].
  assert (E : match iter_collect (TStr LU8) (S (N.to_nat (seq_len (snd x)))) (seq_iter (snd x)) (fst x) with Ok l _ => l = [4096; 4099; 4100] | _ => False end) by (vm_compute; reflexivity).
  destruct (hist_inv _ _ _ _ _ t_str_wf t_str_nonzst (h_strs false)) as (vs & _ & Hat & Hbl & _).
  pose proof (seq_iter_at _ _ _ _ _ t_str_wf Hbl Hat) as Hit. fold x in Hat, Hbl, Hit.
  assert (X : iter_collect (TStr LU8) (S (N.to_nat (seq_len (snd x)))) (seq_iter (snd x)) (fst x) = Ok (addrs (TStr LU8) (it_ptr (seq_iter (snd x))) vs) (fst x)).
  { apply iter_collect_ok; [apply t_str_wf|exact Hit|]. unfold seq_len. rewrite (proj1 Hat). unfold len. lia. }
  rewrite X in E. rewrite X, E. reflexivity.
Qed.

(** ** C18 *)
(** The offsets of the elements, as the API reports them. *)
Definition elem_offset (t : vty) (s : sq) (w : world) (o a : N) : Prop :=
  exists l, iter_collect t (S (N.to_nat (seq_len s))) (seq_iter s) w = Ok l w /\ In a l /\ offset_of t s a w = Ok o w.
Lemma collect_addrs t chk w s vs : wf_ty t -> wf_blocks (w_blocks w) -> seq_at w t chk s vs ->
  iter_collect t (S (N.to_nat (seq_len s))) (seq_iter s) w = Ok (addrs t (s_ptr s) vs) w.
Proof.
  intros Hwf Hbl Hat. apply (iter_collect_ok w t (seq_iter s) vs); [exact Hwf|eapply seq_iter_at; eauto|].
  unfold seq_len. rewrite (proj1 Hat). unfold len. lia.
Qed.
Lemma elem_offset_starts t chk w s vs o a : wf_ty t -> nonzst t -> wf_blocks (w_blocks w) -> seq_at w t chk s vs ->
  (elem_offset t s w o a <-> In o (starts t vs 0) /\ a = s_ptr s + o * sp_align t).
Proof.
  intros Hwf Hz Hbl Hat. unfold elem_offset. rewrite (collect_addrs t chk w s vs Hwf Hbl Hat). split.
  - intros (l & El & Ha & Ho). assert (l = addrs t (s_ptr s) vs) as -> by congruence.
    unfold addrs in Ha. apply in_map_iff in Ha. destruct Ha as (o' & <- & Hin).
    rewrite (offset_of_in w t chk s vs o' Hwf Hz Hbl Hat Hin) in Ho. injection Ho as ->. auto.
  - intros [Hin ->]. eexists. split; [reflexivity|]. split; [unfold addrs; apply in_map_iff; eauto|]. eapply offset_of_in; eauto.
Qed.
(** When no elements were ever taken out: is_offset_valid accepts exactly the offsets of elements,
    from_offset returns exactly that element and panics on any other offset. *)
Theorem C18_checked_exact : forall t w s vs o,
  wf_ty t -> nonzst t -> shist t true w s vs [] ->
  (exists a, elem_offset t s w o a /\ is_offset_valid t s o w = Ok true w /\ from_offset t s o w = Ok a w /\
     exists k v, nth_error vs k = Some v /\ view t a w = Ok v w) \/
  ((forall a, ~ elem_offset t s w o a) /\ is_offset_valid t s o w = Ok false w /\ from_offset t s o w = Panic w).
Proof.
  intros t w s vs o Hwf Hz H. destruct (shist_inv t true w s vs [] Hwf Hz H) as (Hat & Hbl & Hb).
  specialize (Hb eq_refl). apply bits_within_exact in Hb.
  destruct (is_offset_valid_ok w t s vs o Hwf Hz Hbl Hat Hb) as (b & Eb & Hbb).
  destruct (from_offset_ok w t s vs o Hwf Hz Hbl Hat Hb) as [[Hin E]|[Hin E]].
  - left. exists (s_ptr s + o * sp_align t). split; [apply (elem_offset_starts t true w s vs); auto|].
    assert (b = true) as -> by tauto. split; [exact Eb|]. split; [exact E|].
    destruct (in_starts_nth t vs o Hin) as (k & v & Hk & ->). exists k, v. split; [exact Hk|].
    destruct (seq_iter_at _ _ _ _ _ Hwf Hbl Hat) as (_ & _ & Hob). apply view_ok; [auto|]. eapply objs_nth; eauto.
  - right. split; [intros a Ha; apply Hin; now apply (elem_offset_starts t true w s vs o a Hwf Hz Hbl Hat)|].
    split; [|exact E]. destruct b; [exfalso; tauto|exact Eb].
Qed.
(** Every element has such an offset. *)
Theorem C18_every_element : forall t w s vs old k v,
  wf_ty t -> nonzst t -> shist t true w s vs old -> nth_error vs k = Some v ->
  exists o a, elem_offset t s w o a /\ view t a w = Ok v w.
Proof.
  intros t w s vs old k v Hwf Hz H Hk. destruct (shist_inv t true w s vs old Hwf Hz H) as (Hat & Hbl & _).
  exists (total t (firstn k vs)), (s_ptr s + total t (firstn k vs) * sp_align t). split.
  - apply (elem_offset_starts t true w s vs); auto. split; [|reflexivity].
    apply nth_error_In with k. rewrite starts_nth; [reflexivity|]. apply nth_error_Some. congruence.
  - destruct (seq_iter_at _ _ _ _ _ Hwf Hbl Hat) as (_ & _ & Hob). apply view_ok; [auto|]. eapply objs_nth; eauto.
Qed.
Lemma c18_strs : exists w s, shist (TStr LU8) true w s [sv [104;105]; sv []; sv [97;98;99]] [] /\
  (exists a, elem_offset (TStr LU8) s w 4 a) /\ (forall a, ~ elem_offset (TStr LU8) s w 1 a).
Proof.
  destruct (hist_shist _ _ _ _ _ t_str_wf t_str_nonzst (h_strs true)) as (vs & Hi & Hs).
  assert (vs = [sv [104;105]; sv []; sv [97;98;99]]) as -> by (apply (ivalues_inj (TStr LU8) [si [104;105]; si []; si [97;98;99]]); [exact Hi|reflexivity]).
  eexists _, _. split; [exact Hs|]. destruct (shist_inv _ _ _ _ _ _ t_str_wf t_str_nonzst Hs) as (Hat & Hbl & _). split.
  - eexists. eapply elem_offset_starts; eauto; [apply t_str_wf|apply t_str_nonzst|]. split; [right; right; left; reflexivity|reflexivity].
  - intros a Ha. eapply elem_offset_starts in Ha; eauto; [|apply t_str_wf|apply t_str_nonzst]. destruct Ha as [Ha _]. cbn in Ha.
    repeat (destruct Ha as [Ha|Ha]; [discriminate|]). exact Ha.
Qed.
Example C18_meets : exists w s, shist (TStr LU8) true w s [sv [104;105]; sv []; sv [97;98;99]] [] /\
  (exists a, elem_offset (TStr LU8) s w 4 a) /\ (forall a, ~ elem_offset (TStr LU8) s w 1 a).
Proof. exact c18_strs. Qed.

(** ** C19 *)
Lemma from_offset_pure t s o w a w' : from_offset t s o w = Ok a w' -> is_offset_valid t s o w = Ok true w -> w' = w.
Proof.
  unfold from_offset. intros H E. rewrite (bind_ok _ _ _ _ _ E) in H. unfold from_offset_unchecked, pmul in H.
  destruct (o * valign t <? W); [|discriminate]. unfold bind, ret, check_ref in H.
  repeat match type of H with context [if ?b then _ else _] => destruct b; try discriminate end. congruence.
Qed.
(** C19. REFUTED. push "a", push "b", take_elems (dropped at once), push "azzzz": offset 2 is still
    accepted although it lies inside the only element, and reading through the reference that
    from_offset(2) hands out reads outside the allocation: undefined behaviour from safe code. *)
Definition c19_run : res (world * sq) unit :=
  (seq_push (TStr LU8) true (si [97]) ;;; seq_push (TStr LU8) true (si [98]) ;;;
   (it <- take_elems (TStr LU8) true ;; lft (owned_elems_drop (TStr LU8) it)) ;;;
   seq_push (TStr LU8) true (si [97;122;122;122;122])) (w_start, seq_new (TStr LU8)).
Theorem C19_taken_offsets_refuted : exists w s vs old o a,
  wf_ty (TStr LU8) /\ nonzst (TStr LU8) /\ shist (TStr LU8) true w s vs old /\ vs = [sv [97;122;122;122;122]] /\
  (forall a, ~ elem_offset (TStr LU8) s w o a) /\
  is_offset_valid (TStr LU8) s o w = Ok true w /\ from_offset (TStr LU8) s o w = Ok a w /\
  view (TStr LU8) a w = UB UOob.
Proof.
  assert (G : match c19_run with
    | Ok _ (w, s) => match is_offset_valid (TStr LU8) s 2 w with Ok b _ => b = true | _ => False end /\
        match from_offset (TStr LU8) s 2 w with Ok a w' => match view (TStr LU8) a w' with UB u => u = UOob | _ => False end | _ => False end
    | _ => False end) by (vm_compute; split; reflexivity).
  unfold c19_run in G. unfold bind at 1 in G.
  assert (Hc : forall l, len l < 256 -> forall w s, push_ready w (TStr LU8) true s (si l)) by (intros; apply closed_ready, closed_si; assumption).
  destruct (seq_push (TStr LU8) true (si [97]) (w_start, seq_new (TStr LU8))) as [[] [w1 s1]| |] eqn:E1; [|contradiction|contradiction].
  pose proof (S_push _ _ _ _ _ _ _ (sv [97]) _ _ (S_new (TStr LU8) true w_start w_start_ok) (Hc [97] eq_refl _ _) E1 eq_refl) as H1.
  unfold bind at 1 in G. destruct (seq_push (TStr LU8) true (si [98]) (w1, s1)) as [[] [w2 s2]| |] eqn:E2; [|contradiction|contradiction].
  pose proof (S_push _ _ _ _ _ _ _ (sv [98]) _ _ H1 (Hc [98] eq_refl _ _) E2 eq_refl) as H2.
  unfold bind at 1 in G. destruct (shist_inv _ _ _ _ _ _ t_str_wf t_str_nonzst H2) as (Hat2 & Hbl2 & _).
  destruct (take_elems_ok w2 (TStr LU8) true s2 _ t_str_wf Hbl2 Hat2) as (w3 & it & E3 & Hs & Hit & _ & _).
  rewrite (bind_ok _ _ _ _ _ E3) in G.
  rewrite (lft_ok _ _ _ _ _ (owned_elems_drop_ok w3 (TStr LU8) it _ t_str_wf Hit)) in G.
  change (map EDrop (all_drops (TStr LU8) (([] ++ [sv [97]]) ++ [sv [98]]))) with (@nil event) in G. rewrite add_log_nil in G.
  assert (H3 : shist (TStr LU8) true w3 (mkS (s_ptr s2) 0 0 (s_cap s2)) [] ([] ++ starts (TStr LU8) (([] ++ [sv [97]]) ++ [sv [98]]) 0 ++ [total (TStr LU8) (([] ++ [sv [97]]) ++ [sv [98]])])).
  { eapply S_take; [exact H2|exact E3| |auto]. destruct Hs as (_ & Hb & _). rewrite Hb. exact Hbl2. }
  destruct (seq_push (TStr LU8) true (si [97;122;122;122;122]) (w3, mkS (s_ptr s2) 0 0 (s_cap s2))) as [[] [w4 s4]| |] eqn:E4; [|contradiction|contradiction].
  pose proof (S_push _ _ _ _ _ _ _ (sv [97;122;122;122;122]) _ _ H3 (Hc [97;122;122;122;122] eq_refl _ _) E4 eq_refl) as H4.
  destruct (shist_inv _ _ _ _ _ _ t_str_wf t_str_nonzst H4) as (Hat4 & Hbl4 & _). destruct G as [G1 G2].
  pose proof (is_offset_valid_bit w4 (TStr LU8) s4 _ 2 t_str_wf Hbl4 Hat4) as Ev. rewrite Ev in G1. rewrite G1 in Ev.
  destruct (from_offset (TStr LU8) s4 2 w4) as [a w5| |] eqn:E5; [|contradiction|contradiction].
  pose proof (from_offset_pure _ _ _ _ _ _ E5 Ev) as ->.
  exists w4, s4. eexists. eexists. exists 2, a. split; [apply t_str_wf|]. split; [apply t_str_nonzst|]. split; [exact H4|]. split; [reflexivity|].
  split; [|split; [exact Ev|split; [exact E5|]]].
  - intros a' Ha. eapply elem_offset_starts in Ha; eauto; [|apply t_str_wf|apply t_str_nonzst]. destruct Ha as [[Ha|[]] _]. discriminate.
  - destruct (view (TStr LU8) a w4) as [| |u]; [contradiction|contradiction|]. now subst u.
Qed.
(** What remains true after take_elems: the offsets of the elements are accepted, an offset at or
    beyond offset() is rejected, and whatever else is accepted is an offset that was in use before
    some take_elems. *)
Theorem C19_taken_offsets_partial : forall t w s vs old o,
  wf_ty t -> nonzst t -> shist t true w s vs old ->
  (forall a, elem_offset t s w o a -> is_offset_valid t s o w = Ok true w /\ from_offset t s o w = Ok a w) /\
  (seq_offset s <= o -> is_offset_valid t s o w = Ok false w /\ from_offset t s o w = Panic w) /\
  (is_offset_valid t s o w = Ok true w -> (exists a, elem_offset t s w o a) \/ In o old) /\
  (exists b, is_offset_valid t s o w = Ok b w).
Proof.
  intros t w s vs old o Hwf Hz H. destruct (shist_inv t true w s vs old Hwf Hz H) as (Hat & Hbl & Hb). specialize (Hb eq_refl).
  pose proof (is_offset_valid_bit w t s vs o Hwf Hbl Hat) as Ev.
  assert (Hst : forall x, In x (starts t vs 0) -> x < s_occ s).
  { intros x Hx. pose proof Hat as (A1 & A2 & A3 & A4). rewrite A2.
    assert (Hv : Forall (vok t) vs) by (destruct A4 as [[_ ->]|(_ & _ & _ & _ & He & _)]; [constructor|eapply elems_vok, He]).
    pose proof (starts_lt t vs 0 x Hwf Hz Hv Hx). lia. }
  assert (Hrange : o < s_occ s -> 0 < s_cap s /\ o < 8 * bitmap_bytes (s_cap s) /\ o <> s_occ s).
  { intros Ho. destruct Hat as (_ & _ & A3 & _). destruct (bitmap_cover (s_cap s)). lia. }
  split; [|split; [|split; [|eauto]]].
  - intros a Ha. eapply elem_offset_starts in Ha; eauto. destruct Ha as [Hin ->]. specialize (Hst o Hin). destruct (Hrange Hst) as (R1 & R2 & R3).
    destruct (Hb R1 o R2 R3) as [X _]. rewrite (X Hin) in Ev. destruct (N.leb_spec (s_occ s) o); [lia|].
    split; [exact Ev|]. unfold from_offset. rewrite (bind_ok _ _ _ _ _ Ev). eapply from_offset_unchecked_ok; eauto.
  - intros Ho. unfold seq_offset in Ho. destruct (N.leb_spec (s_occ s) o); [|lia]. split; [exact Ev|].
    unfold from_offset. rewrite (bind_ok _ _ _ _ _ Ev). reflexivity.
  - intros Et. rewrite Ev in Et. destruct (N.leb_spec (s_occ s) o) as [Ho|Ho]; [discriminate|]. injection Et as Et.
    destruct (Hrange Ho) as (R1 & R2 & R3). destruct (Hb R1 o R2 R3) as [_ X]. destruct (X Et) as [X1|X1]; [left|right; exact X1].
    eexists. eapply elem_offset_starts; eauto.
Qed.
