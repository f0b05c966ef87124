(** PropsSeq3.v - C26, C28-C31, C42, C43: failed pushes, allocator requests, iterators, extend. *)
From Verif Require Export PropsSeq2.

(** ** C26 *)
(** A push that panics (layout too large, allocator failure, or a panic while the element is being
    built) leaves the sequence with the same length, offset() and elements; the history goes on, so
    every theorem about histories applies to it afterwards. The only events are one growth of the
    storage, if any, and those of the initializer itself: nothing of the sequence is dropped, and no
    block is left behind or lost. *)
Theorem C26_failed_push : forall t chk w s vs old i w' s',
  wf_ty t -> nonzst t -> shist t chk w s vs old -> push_ready w t chk s i ->
  seq_push t chk i (w, s) = Panic (w', s') ->
  seq_len s' = seq_len s /\ seq_offset s' = seq_offset s /\
  seq_contents t s w = Ok vs w /\ seq_contents t s' w' = Ok vs w' /\
  shist t chk w' s' vs old /\
  (exists grow own, w_log w' = w_log w ++ grow ++ own /\
     (grow = [] \/ (exists p n al, grow = [EAlloc p n al]) \/ (exists p n al q m, grow = [ERealloc p n al q m])) /\
     (own = idrop t i \/ (own = fst (irun t i) /\ ival t i = None))) /\
  (forall b, In b (w_blocks w) -> ~ In (b_base b) (seq_base s ++ ibases t i) ->
     In b (w_blocks w') /\ forall x, b_base b <= x < b_base b + b_size b -> w_mem w' x = w_mem w x) /\
  (forall b, In b (w_blocks w') -> (0 < seq_capacity s' /\ b_base b = s_ptr s') \/
     (In b (w_blocks w) /\ ~ In (b_base b) (seq_base s ++ ibases t i))).
Proof.
  intros t chk w s vs old i w' s' Hwf Hz H Hr E. destruct (shist_inv t chk w s vs old Hwf Hz H) as (Hat & Hbl & _).
  pose proof (push_inv_ok t chk w s i vs Hwf Hz Hbl Hat Hr) as HP. rewrite E in HP. destruct HP as (P1 & P2 & P3 & P4 & P5 & P6).
  split; [unfold seq_len; rewrite (proj1 P1), (proj1 Hat); reflexivity|].
  split; [unfold seq_offset; rewrite (proj1 (proj2 P1)), (proj1 (proj2 Hat)); reflexivity|].
  split; [eapply seq_contents_ok; eauto|]. split; [eapply seq_contents_ok; eauto|]. split; [eapply S_fail; eauto|].
  split; [|split; [exact P3|]].
  - pose proof (seq_push_cases t chk w s i vs Hwf Hz Hbl Hat Hr) as HC. rewrite E in HC. unfold push_spec in HC.
    destruct HC as [(w1 & w2 & E1 & Href & U)|(Hzl & w1 & s1 & w2 & Hroom & _ & _ & _ & _ & Hmk & _ & _ & _ & HP)].
    + injection E1 as <- <-. exists [], (idrop t i). split; [|split; auto].
      rewrite (upd_log_eq _ _ _ _ _ _ U). cbn [app]. f_equal. apply (push_refused_same _ _ _ _ _ _ Href).
    + destruct (snd (irun t i)) as [v|] eqn:Ei; [destruct HP as (w3 & E3 & _); discriminate|].
      destruct HP as (w3 & E3 & U). injection E3 as <- <-. pose proof (upd_log_eq _ _ _ _ _ _ U) as El. destruct Hmk as (_ & _ & _ & Ml & _). rewrite Ml in El.
      assert (Ev : ival t i = None) by (rewrite <- (proj1 irun_ival); exact Ei).
      destruct Hroom as [(_ & -> & _)|(_ & _ & G)].
      * exists [], (fst (irun t i)). split; [exact El|]. split; auto.
      * destruct G as (_ & _ & _ & _ & _ & _ & _ & _ & G9). eexists [_], (fst (irun t i)). split; [rewrite El, G9, <- app_assoc; reflexivity|].
        split; [|auto]. destruct (s_cap s =? 0); right; [left|right]; eauto 8.
  - intros b Hb. destruct (P6 b Hb) as [[X ->]|X]; [left; split; [exact X|reflexivity]|right; exact X].
Qed.
(** An element whose clone panics on its second item: the push panics, the string before it stays. *)
Definition i_bomb : init := ISized 2 (ACloneFrom [h1; h2]).
Example C26_meets : exists w' s', push_ready w_start (TArray f_bomb LU8) true (seq_new (TArray f_bomb LU8)) i_bomb /\
  seq_push (TArray f_bomb LU8) true i_bomb (w_start, seq_new (TArray f_bomb LU8)) = Panic (w', s').
Proof.
  assert (X : match seq_push (TArray f_bomb LU8) true i_bomb (w_start, seq_new (TArray f_bomb LU8)) with Panic _ => True | _ => False end) by (vm_compute; exact I).
  destruct (seq_push (TArray f_bomb LU8) true i_bomb (w_start, seq_new (TArray f_bomb LU8))) as [|[w' s']|] eqn:E; [contradiction| |contradiction].
  exists w', s'. split; [|reflexivity]. split; [cbn; conc|]. split; [constructor|exact I].
Qed.

(** ** C28, the part for sequences *)
(** Every request that a push makes is for more than 0 bytes, and a push never makes a request that
    the allocator's contract forbids (that would be undefined behaviour). *)
Theorem C28_seq_requests : forall t chk w s vs old i,
  wf_ty t -> nonzst t -> shist t chk w s vs old -> push_ready w t chk s i ->
  match seq_push t chk i (w, s) with
  | Ok _ (w', _) | Panic (w', _) => exists evs, w_log w' = w_log w ++ evs /\ forall n b, In (n, b) (reqs evs) -> 0 < n
  | UB _ => False
  end.
Proof.
  intros t chk w s vs old i Hwf Hz H Hr. destruct (shist_inv t chk w s vs old Hwf Hz H) as (Hat & Hbl & _).
  pose proof (push_growth t chk w s i vs Hwf Hz Hbl Hat Hr) as HG.
  assert (G : forall w' s' ok, growth_spec t chk w s i w' s' ok -> exists evs, w_log w' = w_log w ++ evs /\ forall n b, In (n, b) (reqs evs) -> 0 < n).
  { intros w' s' ok (evs & El & G1 & G2). exists evs. split; [exact El|]. intros n b Hin.
    destruct (N.leb_spec (s_occ s + icells t i) (s_cap s)) as [Hle|Hgt].
    - destruct (G1 Hle) as (_ & _ & C & _). rewrite (reqs_none _ C) in Hin. destruct Hin.
    - destruct (G2 Hgt) as [(A & B & C)|(_ & _ & C)]; [|rewrite (reqs_none _ C) in Hin; destruct Hin].
      destruct (reqs_one evs _ B C) as [b' Er]. rewrite Er in Hin. destruct Hin as [Hin|[]]. injection Hin as <- _.
      apply storage_pos; [exact Hwf|]. rewrite A. pose proof (new_cap_ge t (s_occ s + icells t i) (s_cap s)). lia. }
  destruct (seq_push t chk i (w, s)) as [u [w' s']|[w' s']|]; [| |exact HG]; eapply G; exact HG.
Qed.

(** ** C29 *)
(** [iterating t s w it l]: [it] is an iterator over the sequence obtained by iter() (or iter_mut())
    and any number of next() and limited_to() calls; [l] are the addresses it still has to yield. *)
Inductive iterating (t : vty) (s : sq) (w : world) (all : list N) : iter -> list N -> Prop :=
| I_start : iterating t s w all (seq_iter s) all
| I_next : forall it a l it', iterating t s w all it (a :: l) -> iter_next t it w = Ok (Some a, it') w -> iterating t s w all it' l
| I_limit : forall it l n, iterating t s w all it l -> iterating t s w all (limited_to it n) (firstn (N.to_nat n) l).
Lemma iterating_inv t s w vs it l : wf_ty t -> iter_at w t (seq_iter s) vs ->
  iterating t s w (addrs t (s_ptr s) vs) it l -> exists us, iter_at w t it us /\ l = addrs t (it_ptr it) us.
Proof.
  intros Hwf H0. induction 1 as [|it a l it' H (us & IH & El) E|it l n H (us & IH & El)].
  - exists vs. auto.
  - destruct us as [|u us]; [discriminate|]. rewrite addrs_cons in El. injection El as -> ->.
    destruct (iter_next_cons w t it u us Hwf IH) as (it1 & E1 & Hit & Ei). rewrite E in E1. injection E1 as ->.
    exists us. split; [exact Hit|]. rewrite Ei. reflexivity.
  - exists (firstn (N.to_nat n) us). split; [now apply limited_to_at|]. rewrite El. cbn [limited_to it_ptr]. unfold addrs. rewrite firstn_map. f_equal.
    clear. generalize 0. generalize (N.to_nat n). intros k. revert us; induction k as [|k IH]; intros [|u us] o; cbn; auto. now rewrite IH.
Qed.
(** At any point: what the iterator yields from now on is [l], and len(), size_hint() and count()
    report exactly its length. *)
Theorem C29_iterators_exact : forall t chk w s vs old it l,
  wf_ty t -> nonzst t -> shist t chk w s vs old ->
  iterating t s w (addrs t (s_ptr s) vs) it l ->
  iter_collect t (S (N.to_nat (seq_len s))) (seq_iter s) w = Ok (addrs t (s_ptr s) vs) w /\
  iter_collect t (S (N.to_nat (iter_len it))) it w = Ok l w /\
  iter_len it = len l /\ iter_size_hint it = (len l, Some (len l)) /\
  (match l with [] => iter_next t it w = Ok (None, it) w | a :: _ => exists it', iter_next t it w = Ok (Some a, it') w end).
Proof.
  intros t chk w s vs old it l Hwf Hz H Hi. destruct (shist_inv t chk w s vs old Hwf Hz H) as (Hat & Hbl & _).
  pose proof (seq_iter_at _ _ _ _ _ Hwf Hbl Hat) as Hit0.
  destruct (iterating_inv t s w vs it l Hwf Hit0 Hi) as (us & Hit & ->).
  assert (El : len (addrs t (it_ptr it) us) = len us) by (unfold addrs, len; now rewrite map_length, starts_len).
  split; [eapply collect_addrs; eauto|].
  split; [apply iter_collect_ok; auto; unfold iter_len; rewrite (proj1 Hit); unfold len; lia|].
  split; [unfold iter_len; rewrite El; apply Hit|]. split; [unfold iter_size_hint; rewrite El, (proj1 Hit); reflexivity|].
  destruct us as [|u us]; [now apply iter_next_nil|]. rewrite addrs_cons. destruct (iter_next_cons w t it u us Hwf Hit) as (it1 & E1 & _). eauto.
Qed.
(** limited_to(n) keeps the first n of the remaining items. *)
Theorem C29_limited_to : forall t chk w s vs old it l n,
  wf_ty t -> nonzst t -> shist t chk w s vs old -> iterating t s w (addrs t (s_ptr s) vs) it l ->
  iter_collect t (S (N.to_nat (iter_len (limited_to it n)))) (limited_to it n) w = Ok (firstn (N.to_nat n) l) w /\
  iter_len (limited_to it n) = N.min n (len l).
Proof.
  intros t chk w s vs old it l n Hwf Hz H Hi. pose proof (I_limit _ _ _ _ _ _ n Hi) as Hi2.
  destruct (C29_iterators_exact t chk w s vs old _ _ Hwf Hz H Hi2) as (_ & H2 & H3 & _). split; [exact H2|].
  rewrite H3. unfold len. rewrite firstn_length. lia.
Qed.
Example C29_meets : exists w s, shist (TStr LU8) true w s [sv [104;105]; sv []; sv [97;98;99]] [] /\
  addrs (TStr LU8) (s_ptr s) [sv [104;105]; sv []; sv [97;98;99]] = [4096; 4099; 4100] /\
  exists it, iterating (TStr LU8) s w [4096; 4099; 4100] it [4099].
Proof.
  destruct (hist_shist _ _ _ _ _ t_str_wf t_str_nonzst (h_strs true)) as (vs & Hi & Hs).
  assert (vs = [sv [104;105]; sv []; sv [97;98;99]]) as -> by (apply (ivalues_inj (TStr LU8) [si [104;105]; si []; si [97;98;99]]); [exact Hi|reflexivity]).
  eexists _, _. split; [exact Hs|]. assert (Ep : s_ptr (snd (run_seq (TStr LU8) true [si [104;105]; si []; si [97;98;99]])) = 4096) by (vm_compute; reflexivity).
  rewrite Ep. split; [reflexivity|]. destruct (shist_inv _ _ _ _ _ _ t_str_wf t_str_nonzst Hs) as (Hat & Hbl & _).
  pose proof (seq_iter_at _ _ _ _ _ t_str_wf Hbl Hat) as Hit.
  destruct (iter_next_cons _ (TStr LU8) _ _ _ t_str_wf Hit) as (it1 & E1 & _ & Ei).
  exists (limited_to it1 1). change [4099] with (firstn (N.to_nat 1) [4099; 4100]). apply I_limit.
  eapply I_next; [apply I_start|]. change (it_ptr (seq_iter (snd (run_seq (TStr LU8) true [si [104;105]; si []; si [97;98;99]])))) with
    (s_ptr (snd (run_seq (TStr LU8) true [si [104;105]; si []; si [97;98;99]]))) in E1. rewrite Ep in E1. exact E1.
Qed.

(** ** C30 *)
(** iter_mut yields the elements in order, at pairwise disjoint byte ranges. *)
Theorem C30_elements_disjoint : forall t chk w s vs old j k vj vk aj ak,
  wf_ty t -> nonzst t -> shist t chk w s vs old ->
  (j < k)%nat -> nth_error vs j = Some vj -> nth_error vs k = Some vk ->
  nth_error (addrs t (s_ptr s) vs) j = Some aj -> nth_error (addrs t (s_ptr s) vs) k = Some ak ->
  iter_collect t (S (N.to_nat (seq_len s))) (seq_iter s) w = Ok (addrs t (s_ptr s) vs) w /\
  view t aj w = Ok vj w /\ view t ak w = Ok vk w /\ aj + vsize t vj <= ak.
Proof.
  intros t chk w s vs old j k vj vk aj ak Hwf Hz H Hjk Hj Hk Ha Hb. destruct (shist_inv t chk w s vs old Hwf Hz H) as (Hat & Hbl & _).
  split; [eapply collect_addrs; eauto|].
  destruct (seq_iter_at _ _ _ _ _ Hwf Hbl Hat) as (_ & _ & Hob). cbn [seq_iter it_ptr] in Hob.
  rewrite (nth_addrs t (s_ptr s) vs j vj Hj) in Ha. rewrite (nth_addrs t (s_ptr s) vs k vk Hk) in Hb. injection Ha as <-. injection Hb as <-.
  split; [apply view_ok; [auto|eapply objs_nth; eauto]|]. split; [apply view_ok; [auto|eapply objs_nth; eauto]|].
  pose proof (cells_ge t vj Hwf) as Hc.
  assert (total t (firstn j vs) + cells t vj <= total t (firstn k vs)); [|nia].
  assert (Hn : nth_error (firstn k vs) j = Some vj).
  { clear -Hjk Hj. revert j k Hjk Hj; induction vs as [|v vs IH]; intros [|j] [|k] Hjk Hj; cbn in *; try discriminate; try lia; auto. apply IH; [lia|auto]. }
  pose proof (total_nth t (firstn k vs) j vj Hn) as X. rewrite firstn_firstn in X. now replace (Nat.min j k) with j in X by lia.
Qed.
(** Mutating a leaf of one element changes that leaf only: the sequence holds the same list with that
    one element changed; length, capacity, address and every answer of offset_of and of checked
    indexing are the same, and the bytes of all other elements too. *)
Theorem C30_mutation_local : forall t chk w s vs old k v a p f new w',
  wf_ty t -> nonzst t -> shist t chk w s vs old ->
  nth_error vs k = Some v -> nth_error (addrs t (s_ptr s) vs) k = Some a ->
  mut_leaf t p = Some f -> len new = f_size f -> assign t a p new w = Ok tt w' ->
  exists v', view t a w' = Ok v' w' /\ leaf v' p = Some new /\ (forall q, q <> p -> leaf v' q = leaf v q) /\
    seq_contents t s w = Ok vs w /\ seq_contents t s w' = Ok (replace_nth vs k v') w' /\
    iter_collect t (S (N.to_nat (seq_len s))) (seq_iter s) w' = Ok (addrs t (s_ptr s) vs) w' /\
    (forall x, x < a \/ a + vsize t v <= x -> w_mem w' x = w_mem w x) /\
    (chk = true -> forall o, exists b, is_offset_valid t s o w = Ok b w /\ is_offset_valid t s o w' = Ok b w') /\
    shist t chk w' s (replace_nth vs k v') old.
Proof.
  intros t chk w s vs old k v a p f new w' Hwf Hz H Hk Ha Hm Hn E. destruct (shist_inv t chk w s vs old Hwf Hz H) as (Hat & Hbl & _).
  destruct (seq_iter_at _ _ _ _ _ Hwf Hbl Hat) as (_ & _ & Hob). cbn [seq_iter it_ptr] in Hob.
  pose proof (objs_nth w t (s_ptr s) vs k v Hob Hk) as Ho. pose proof Ha as Ha'. rewrite (nth_addrs t (s_ptr s) vs k v Hk) in Ha'. injection Ha' as Ea. rewrite Ea in Ho.
  pose proof (assign_ok t w a v p f new Hwf Ho Hm Hn) as HA. destruct (leaf v p) as [ol|] eqn:El; [|rewrite E in HA; discriminate].
  destruct HA as (w1 & o & E1 & Hin & U & Hrd & Ho' & Hsh). rewrite E in E1. injection E1 as <-.
  pose proof (S_assign t chk w s vs old k v a p f new w' H Hk Ha Hm Hn E) as H'.
  destruct (shist_inv t chk w' s _ old Hwf Hz H') as (Hat' & Hbl' & _).
  assert (Hmem : forall x, x < a \/ a + vsize t v <= x -> w_mem w' x = w_mem w x) by (intros x Hx; apply (upd_mem _ _ _ _ _ _ U); lia).
  exists (put v p new). split; [now apply view_ok|]. split; [eapply leaf_put_eq; exact El|]. split; [intros q Hq; apply leaf_put_ne; auto|].
  split; [eapply seq_contents_ok; eauto|]. split; [eapply seq_contents_ok; eauto|].
  split; [rewrite (collect_addrs t chk w' s _ Hwf Hbl' Hat'); unfold addrs; now rewrite (starts_put t vs k v) by auto|].
  split; [exact Hmem|]. split; [|exact H'].
  intros -> o'. rewrite (is_offset_valid_bit w t s vs o' Hwf Hbl Hat), (is_offset_valid_bit w' t s _ o' Hwf Hbl' Hat').
  eexists. split; [reflexivity|]. destruct (s_occ s <=? o'); [reflexivity|]. f_equal. unfold bit_at. rewrite Hmem; [reflexivity|].
  right. pose proof (total_nth t vs k v Hk) as Htn. pose proof (cells_ge t v Hwf) as Hcg. destruct Hat as (_ & A2 & A3 & _). rewrite <- Ea. rewrite A2 in A3. nia.
Qed.
Example C30_meets : exists w s, shist t_ex true w s [v_ex; v_ex] [] /\
  nth_error (addrs t_ex (s_ptr s) [v_ex; v_ex]) 1 = Some 8248 /\
  mut_leaf t_ex (PFld 4 (PFld 0 (PIdx 1))) = Some f_box /\ leaf v_ex (PFld 4 (PFld 0 (PIdx 1))) = Some h3.
Proof.
  destruct (hist_shist t_ex true _ _ _ t_ex_wf t_ex_nonzst (h_structs true)) as (vs & Hi & Hs).
  assert (vs = [v_ex; v_ex]) as -> by (apply (ivalues_inj t_ex [i_ex; i_ex]); [exact Hi|reflexivity]).
  eexists _, _. split; [exact Hs|]. split; vm_compute; auto.
Qed.

(** ** C31 *)
(** extend pushes the items in order; when one panics, the items before it have been pushed and no
    other. *)
Theorem C31_extend : forall t chk is_ w s vs old,
  wf_ty t -> nonzst t -> shist t chk w s vs old -> inits_ready w t chk s is_ ->
  match seq_extend t chk is_ (w, s) with
  | Ok _ (w', s') => exists ws, map (ival t) is_ = map Some ws /\ shist t chk w' s' (vs ++ ws) old /\
      seq_contents t s' w' = Ok (vs ++ ws) w'
  | Panic (w', s') => exists l1 i l2 ws w1 s1, is_ = l1 ++ i :: l2 /\ map (ival t) l1 = map Some ws /\
      seq_extend t chk l1 (w, s) = Ok tt (w1, s1) /\ seq_push t chk i (w1, s1) = Panic (w', s') /\
      shist t chk w' s' (vs ++ ws) old /\ seq_contents t s' w' = Ok (vs ++ ws) w'
  | UB _ => False
  end.
Proof.
  intros t chk is_ w s vs old Hwf Hz. revert w s vs. unfold seq_extend. induction is_ as [|i is_ IH]; intros w s vs H Hr; cbn [for_each].
  - exists []. rewrite app_nil_r. split; [reflexivity|]. split; [exact H|]. eapply C15_seq_is_list; eauto.
  - destruct (shist_inv t chk w s vs old Hwf Hz H) as (Hat & Hbl & _). pose proof (inits_head _ _ _ _ _ _ Hr) as Hri.
    pose proof (push_inv_ok t chk w s i vs Hwf Hz Hbl Hat Hri) as HP. pose proof (C15_push_defined t chk w s vs old i Hwf Hz H Hri) as HD. unfold bind.
    destruct (seq_push t chk i (w, s)) as [[] [w1 s1]|[w1 s1]|] eqn:E; [| |exact HP].
    + destruct HP as (v & Ev & HP). destruct HD as (v' & Ev' & HD). rewrite Ev in Ev'. injection Ev' as <-.
      pose proof (inits_tail t chk w s i is_ vs _ w1 s1 Hwf Hbl Hat HP Hr) as Hr1. specialize (IH w1 s1 (vs ++ [v]) HD Hr1).
      destruct (for_each (seq_push t chk) is_ (w1, s1)) as [u [w2 s2]|[w2 s2]|]; [| |exact IH].
      * destruct IH as (ws & E1 & E2 & E3). rewrite <- app_assoc in E2, E3. exists (v :: ws). cbn [map]. rewrite Ev, E1. auto.
      * destruct IH as (l1 & j & l2 & ws & w3 & s3 & -> & E1 & E2 & E3 & E4 & E5). rewrite <- app_assoc in E4, E5.
        exists (i :: l1), j, l2, (v :: ws), w3, s3. cbn [map app for_each]. rewrite Ev, E1. unfold bind. rewrite E. auto 8.
    + exists [], i, is_, [], w, s. rewrite app_nil_r. repeat (split; [reflexivity|]). split; [exact E|]. split; [exact HD|]. eapply C15_seq_is_list; eauto.
Qed.
(** collect and seq!: a new sequence with the items; if one panics, the items already collected are
    dropped (each once, in order) and the storage is freed: no block is left behind. *)
Theorem C31_collect : forall t chk is_ w,
  wf_ty t -> nonzst t -> wf_blocks (w_blocks w) -> inits_ready w t chk (seq_new t) is_ ->
  match seq_collect t chk is_ w with
  | Ok s w' => exists ws, map (ival t) is_ = map Some ws /\ shist t chk w' s ws [] /\ seq_contents t s w' = Ok ws w'
  | Panic w' => exists l1 i l2 ws w1 s1 w2 s2, is_ = l1 ++ i :: l2 /\ map (ival t) l1 = map Some ws /\
      seq_extend t chk l1 (w, seq_new t) = Ok tt (w1, s1) /\ seq_push t chk i (w1, s1) = Panic (w2, s2) /\
      w_log w' = w_log w2 ++ map EDrop (concat (map (vdrops t) ws)) ++
        (if seq_capacity s2 =? 0 then [] else [EDealloc (s_ptr s2) (storage_bytes t chk (seq_capacity s2)) (sp_align t)]) /\
      (forall b, In b (w_blocks w') -> In b (w_blocks w))
  | UB _ => False
  end.
Proof.
  intros t chk is_ w Hwf Hz Hbl Hr. pose proof (C31_extend t chk is_ w (seq_new t) [] [] Hwf Hz (S_new t chk w Hbl) Hr) as HE.
  pose proof (seq_collect_ok t chk is_ w Hwf Hz Hbl Hr) as HC. unfold seq_collect in *.
  destruct (seq_extend t chk is_ (w, seq_new t)) as [u [w' s']|[w' s']|]; [exact HE| |exact HE].
  destruct HE as (l1 & i & l2 & ws & w1 & s1 & E0 & E1 & E2 & E3 & E4 & E5). cbn [app] in *.
  destruct (shist_inv t chk w' s' ws [] Hwf Hz E4) as (Hat & Hbl' & _).
  destruct (seq_drop_ok w' t chk s' ws Hwf Hbl' Hat) as (w3 & s3 & E6 & U). rewrite E6 in *.
  destruct HC as (k & ws' & e & _ & _ & _ & _ & Hsub & _).
  exists l1, i, l2, ws, w1, s1, w', s'. repeat (split; [assumption|]). split; [exact (upd_log_eq _ _ _ _ _ _ U)|exact Hsub].
Qed.
Example C31_meets : inits_ready w_start t_ex true (seq_new t_ex) [i_ex; i_ex; i_ex] /\
  match seq_collect t_ex true [i_ex; i_ex; i_ex] w_start with Ok s _ => seq_len s = 3 | _ => False end.
Proof.
  split; [|vm_compute; reflexivity]. split; [constructor|]. repeat constructor; try apply closed_ex.
Qed.

(** ** C42 *)
(** The storage of an IndexableSeq with capacity c is one block of c*ALIGN + ceil(c/8) bytes (without
    the second summand for an unchecked sequence), and a push touches no block but that one (and those
    the initializer owns): no read or write leaves it (that would be undefined behaviour), and every
    other block is unchanged. *)
Theorem C42_bitmap_overhead : forall t chk w s vs old,
  wf_ty t -> nonzst t -> shist t chk w s vs old -> 0 < seq_capacity s ->
  In (mkB (s_ptr s) (seq_capacity s * sp_align t + (if chk then ceil_div (seq_capacity s) 8 else 0)) (sp_align t) true) (w_blocks w) /\
  forall b, In b (w_blocks w) -> b_base b = s_ptr s ->
    b_size b = seq_capacity s * sp_align t + (if chk then ceil_div (seq_capacity s) 8 else 0).
Proof.
  intros t chk w s vs old Hwf Hz H Hc. destruct (shist_inv t chk w s vs old Hwf Hz H) as (Hat & Hbl & _).
  destruct Hat as (A1 & A2 & A3 & [[[E0 _] ->]|(B1 & B2 & _)]); [unfold seq_capacity in Hc; lia|]. split; [exact B2|].
  intros b Hb Eb. destruct (N.eq_dec (b_size b) (b_size (seq_block t chk s))) as [X|X]; [exact X|].
  assert (Hd : b <> seq_block t chk s) by congruence. exfalso.
  pose proof (wf_block_in _ _ Hbl Hb) as Q1. pose proof (wf_block_in _ _ Hbl B2) as Q2. cbn [seq_block b_base b_size] in Q2.
  destruct Hbl as [_ Hbl]. destruct (FOP_in _ _ _ _ Hbl Hb B2) as [Y|[Y|Y]]; [congruence| |];
    unfold blocks_apart in Y; cbn [seq_block b_base b_size] in Y; lia.
Qed.
Theorem C42_push_stays_inside : forall t chk w s vs old i,
  wf_ty t -> nonzst t -> shist t chk w s vs old -> push_ready w t chk s i ->
  match seq_push t chk i (w, s) with
  | Ok _ (w', _) | Panic (w', _) => forall b, In b (w_blocks w) -> ~ In (b_base b) (seq_base s) -> ~ In (b_base b) (ibases t i) ->
      In b (w_blocks w') /\ forall x, b_base b <= x < b_base b + b_size b -> w_mem w' x = w_mem w x
  | UB _ => False
  end.
Proof.
  intros t chk w s vs old i Hwf Hz H Hr. destruct (shist_inv t chk w s vs old Hwf Hz H) as (Hat & Hbl & _).
  pose proof (push_inv_ok t chk w s i vs Hwf Hz Hbl Hat Hr) as HP.
  destruct (seq_push t chk i (w, s)) as [u [w' s']|[w' s']|]; [destruct HP as (v & _ & HP)| |exact HP];
    destruct HP as (_ & _ & P3 & _); intros b Hb N1 N2; apply P3; auto; rewrite in_app_iff; tauto.
Qed.
Example C42_meets : exists w s vs, shist t_ex true w s vs [] /\ seq_capacity s = 14 /\ w_blocks w = [mkB 8192 114 8 true].
Proof.
  destruct (hist_shist t_ex true _ _ _ t_ex_wf t_ex_nonzst (h_structs true)) as (vs & Hi & Hs).
  eexists _, _, vs. split; [exact Hs|]. vm_compute. auto.
Qed.

(** ** C43 *)
(** Under the isize::MAX rule of Layout (Rust 1.65 and later) the addition never wraps: the result is
    the exact sum, or None when the extended layout is too large. *)
Theorem C43_no_overflow_partial : forall size align w,
  from_size_align size align = true -> size mod align = 0 ->
  let bytes := ceil_div (size / align) 8 in
  add_bitmask_to_layout size align w = Ok (if from_size_align (size + bytes) align then Some (size + bytes, bytes) else None) w.
Proof.
  intros size align w Hf Hm. unfold add_bitmask_to_layout, add_bitmask_lim. rewrite Hm. cbn [N.eqb negb].
  unfold from_size_align, from_size_align_lim in Hf. apply andb_prop in Hf. destruct Hf as [Ha Hs]. apply N.eqb_eq in Ha. apply N.leb_le in Hs.
  assert (Hal : 0 < align) by (rewrite Ha; apply N.neq_0_lt_0, N.pow_nonzero; discriminate).
  rewrite ISIZE_eq in Hs. assert (Hq : size / align <= size) by (apply N.div_le_upper_bound; nia).
  assert (H8 : (size / align + 7) / 8 <= size / align + 1) by (generalize (size / align); intros q; apply N.div_le_upper_bound; lia).
  cbv zeta. unfold ceil_div. change (8 - 1) with 7. unfold checked_add, padd, bind, ret. rewrite W_eq.
  rewrite (proj2 (N.eqb_eq 0 0) eq_refl). cbn [negb]. set (q := size / align) in *. clearbody q.
  destruct (N.ltb_spec (q + 7) 18446744073709551616); [|lia]. cbv beta iota. set (b := (q + 7) / 8) in *. clearbody b.
  destruct (N.ltb_spec (size + b) 18446744073709551616); [|lia]. unfold from_size_align.
  destruct (from_size_align_lim ISIZE_MAX (size + b) align); reflexivity.
Qed.
(** Under the older rule (any size up to usize::MAX) it does wrap. *)
Theorem C43_old_rule_refuted : exists size align, from_size_align_lim (2 ^ 64 - 1) size align = true /\ size mod align = 0 /\
  forall w, add_bitmask_lim (2 ^ 64 - 1) size align w = UB UArith.
Proof. exists (2 ^ 64 - 8), 8. split; [reflexivity|]. split; [reflexivity|]. intros w. vm_compute. reflexivity. Qed.
Example C43_meets : from_size_align 112 8 = true /\ 112 mod 8 = 0 /\ add_bitmask_to_layout 112 8 w_start = Ok (Some (114, 2)) w_start.
Proof. split; [reflexivity|]. split; [reflexivity|]. reflexivity. Qed.
