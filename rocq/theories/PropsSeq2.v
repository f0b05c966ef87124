(** PropsSeq2.v - C20-C23, C26, C28-C31, C42, C43: growth, cost, taking out, dropping, iterators. *)
From Verif Require Export PropsSeq.

(** ** C20 *)
(** Requests to the allocator in a piece of the log, oldest first: (size, is it a reallocation). *)
Fixpoint reqs (l : list event) : list (N * bool) :=
  match l with
  | [] => []
  | EAlloc _ n _ :: r => (n, false) :: reqs r
  | ERealloc _ _ _ _ n :: r => (n, true) :: reqs r
  | _ :: r => reqs r
  end.
Lemma reqs_none l : requests l = 0 -> reqs l = [].
Proof. induction l as [|[] l IH]; cbn [requests reqs]; intros H; auto; lia. Qed.
Lemma reqs_one l n : requests l = 1 -> requested l = n -> exists b, reqs l = [(n, b)].
Proof.
  revert n; induction l as [|e l IH]; cbn; [lia|]. destruct e; cbn [requests requested reqs]; intros k H1 H2; auto.
  - assert (H0 : requests l = 0) by lia. rewrite (reqs_none l H0), (requests_0 l H0) in *. exists false. do 2 f_equal. lia.
  - assert (H0 : requests l = 0) by lia. rewrite (reqs_none l H0), (requests_0 l H0) in *. exists true. do 2 f_equal. lia.
Qed.
(** offset() never exceeds the capacity. A push that needs no more room than there is makes no
    request and keeps the storage where it is. One that needs more makes exactly one request, for the
    new capacity max(needed, ceil(32/ALIGN), 2*old), or panics leaving the sequence as it is. *)
Theorem C20_growth_policy : forall t chk w s vs old i,
  wf_ty t -> nonzst t -> shist t chk w s vs old -> push_ready w t chk s i ->
  let need := seq_offset s + ceil_div (isize t i) (sp_align t) in
  let cap' := N.max (N.max need (ceil_div 32 (sp_align t))) (2 * seq_capacity s) in
  let bytes := cap' * sp_align t + (if chk then ceil_div cap' 8 else 0) in
  let roomy w' s' := seq_capacity s' = seq_capacity s /\ s_ptr s' = s_ptr s /\ exists evs, w_log w' = w_log w ++ evs /\ reqs evs = [] in
  let grew w' s' := seq_capacity s' = cap' /\ exists evs b, w_log w' = w_log w ++ evs /\ reqs evs = [(bytes, b)] in
  seq_offset s <= seq_capacity s /\
  match seq_push t chk i (w, s) with
  | Ok _ (w', s') => if need <=? seq_capacity s then roomy w' s' else grew w' s'
  | Panic (w', s') => if need <=? seq_capacity s then roomy w' s' else s' = s \/ grew w' s'
  | UB _ => False
  end.
Proof.
  intros t chk w s vs old i Hwf Hz H Hr need cap' bytes roomy grew. destruct (shist_inv t chk w s vs old Hwf Hz H) as (Hat & Hbl & _).
  split; [apply Hat|]. pose proof (push_growth t chk w s i vs Hwf Hz Hbl Hat Hr) as HG.
  pose proof (sp_align_pos t Hwf) as Hp.
  assert (Hn : new_cap t need (s_cap s) = cap').
  { unfold new_cap, cap', ceil_div, seq_capacity. replace (32 + sp_align t - 1) with (32 + (sp_align t - 1)) by lia.
    replace (s_cap s * 2) with (2 * s_cap s) by lia. reflexivity. }
  assert (Hb : forall c, storage_bytes t chk c = c * sp_align t + (if chk then ceil_div c 8 else 0)).
  { intros c. unfold storage_bytes, bitmap_bytes, ceil_div. reflexivity. }
  assert (G : forall w' s' ok, growth_spec t chk w s i w' s' ok ->
    if need <=? seq_capacity s then roomy w' s' else (ok = false /\ s' = s) \/ grew w' s').
  { intros w' s' ok (evs & El & G1 & G2). change (s_occ s + icells t i) with need in *. unfold seq_capacity.
    destruct (N.leb_spec need (s_cap s)) as [Hle|Hgt].
    - destruct (G1 Hle) as (A & B & C & _). split; [exact A|]. split; [exact B|]. exists evs. split; [exact El|now apply reqs_none].
    - destruct (G2 Hgt) as [(A & B & C)|(A & B & _)]; [right|left; auto]. rewrite Hn in A. split; [exact A|].
      rewrite A, Hb in C. destruct (reqs_one evs _ B C) as [b Er]. exists evs, b. auto. }
  destruct (seq_push t chk i (w, s)) as [u [w' s']|[w' s']|]; [| |exact HG].
  - specialize (G w' s' true HG). destruct (need <=? seq_capacity s); [exact G|]. destruct G as [[X _]|G]; [discriminate|exact G].
  - specialize (G w' s' false HG). destruct (need <=? seq_capacity s); [exact G|]. tauto.
Qed.
(** The capacity never decreases: not by a push, and take_elems keeps it. *)
Theorem C20_capacity_monotone : forall t chk w s vs old i,
  wf_ty t -> nonzst t -> shist t chk w s vs old ->
  (push_ready w t chk s i ->
    match seq_push t chk i (w, s) with Ok _ (_, s') | Panic (_, s') => seq_capacity s <= seq_capacity s' | UB _ => False end) /\
  match take_elems t chk (w, s) with Ok _ (_, s') => seq_capacity s' = seq_capacity s | _ => False end.
Proof.
  intros t chk w s vs old i Hwf Hz H. split.
  - intros Hr. destruct (C20_growth_policy t chk w s vs old i Hwf Hz H Hr) as [_ G]. cbv zeta in G.
    destruct (seq_push t chk i (w, s)) as [u [w' s']|[w' s']|]; [| |exact G].
    + destruct (_ <=? _); [destruct G as [-> _]; lia|destruct G as [-> _]; lia].
    + destruct (_ <=? _); [destruct G as [-> _]; lia|destruct G as [->|[-> _]]; lia].
  - destruct (shist_inv t chk w s vs old Hwf Hz H) as (Hat & Hbl & _). destruct (take_elems_ok w t chk s vs Hwf Hbl Hat) as (w' & it & -> & _). reflexivity.
Qed.
Example C20_meets : exists w s vs, shist t_ex true w s vs [] /\ len vs = 2 /\ push_ready w t_ex true s i_ex /\
  (* the third struct does not fit *)
  seq_capacity s = 14 /\ seq_offset s = 14 /\ ceil_div (isize t_ex i_ex) (sp_align t_ex) = 7.
Proof.
  destruct (hist_shist t_ex true _ _ _ t_ex_wf t_ex_nonzst (h_structs true)) as (vs & Hi & Hs).
  eexists _, _, vs. split; [exact Hs|]. split; [apply (ivalues_len _ _ _ Hi)|]. split; [apply closed_ready, closed_ex|]. vm_compute. auto.
Qed.

(** ** C21 *)
(** [pushes t chk w s is_ w' s']: the items of [is_] are pushed one after the other; some of the
    pushes may panic. *)
Inductive pushes (t : vty) (chk : bool) (w : world) (s : sq) : list init -> world -> sq -> Prop :=
| P_nil : pushes t chk w s [] w s
| P_ok : forall is_ w1 s1 i w2 s2, pushes t chk w s is_ w1 s1 -> push_ready w1 t chk s1 i ->
    seq_push t chk i (w1, s1) = Ok tt (w2, s2) -> pushes t chk w s (is_ ++ [i]) w2 s2
| P_panic : forall is_ w1 s1 i w2 s2, pushes t chk w s is_ w1 s1 -> push_ready w1 t chk s1 i ->
    seq_push t chk i (w1, s1) = Panic (w2, s2) -> pushes t chk w s (is_ ++ [i]) w2 s2.
(** All bytes requested from the allocator by a series of pushes. *)
Definition bytes_requested (evs : list event) : N := sum (map fst (reqs evs)).
Lemma bytes_requested_eq evs : bytes_requested evs = requested evs.
Proof. unfold bytes_requested. induction evs as [|e evs IH]; [reflexivity|]. unfold sum in *. destruct e; cbn [reqs requested map fold_right fst]; lia. Qed.
(** The number of bytes per offset: ALIGN, and less than one more for the bitmap. *)
Theorem C21_amortised : forall t chk w s vs old is_ w' s',
  wf_ty t -> nonzst t -> shist t chk w s vs old -> pushes t chk w s is_ w' s' ->
  let per_offset := sp_align t + (if chk then 1 else 0) in
  let pushed := sum (map (fun i => ceil_div (isize t i) (sp_align t)) is_) in
  (exists evs, w_log w' = w_log w ++ evs /\
     bytes_requested evs <= 2 * (seq_capacity s' - seq_capacity s) * per_offset) /\
  seq_capacity s <= seq_capacity s' <= N.max (seq_capacity s) (N.max (2 * (seq_offset s + pushed)) (ceil_div 32 (sp_align t))).
Proof.
  intros t chk w s vs old is_ w' s' Hwf Hz H HP per_offset.
  assert (Hinv : (exists vs', shist t chk w' s' vs' old) /\ seq_offset s' <= seq_offset s + sum (map (fun i => ceil_div (isize t i) (sp_align t)) is_) /\
    (exists evs, w_log w' = w_log w ++ evs /\ requested evs + 2 * seq_capacity s * per_offset <= 2 * seq_capacity s' * per_offset) /\
    seq_capacity s <= seq_capacity s' <= N.max (seq_capacity s) (N.max (2 * (seq_offset s + sum (map (fun i => ceil_div (isize t i) (sp_align t)) is_))) (ceil_div 32 (sp_align t)))).
  2:{ destruct Hinv as (_ & _ & (evs & El & Hc) & Hm). cbv zeta. split; [|exact Hm]. exists evs. split; [exact El|]. rewrite bytes_requested_eq. nia. }
  assert (Hsum : forall l i, sum (map (fun i => ceil_div (isize t i) (sp_align t)) (l ++ [i])) =
    sum (map (fun i => ceil_div (isize t i) (sp_align t)) l) + ceil_div (isize t i) (sp_align t)).
  { intros l i. rewrite map_app. unfold sum. induction l as [|x l IH]; cbn [map app fold_right] in *; lia. }
  assert (Hstep : forall is_ w1 s1 i w2 s2 vs1 ok,
    shist t chk w1 s1 vs1 old -> push_ready w1 t chk s1 i -> growth_spec t chk w1 s1 i w2 s2 ok ->
    s_occ s2 <= s_occ s1 + icells t i ->
    seq_offset s1 <= seq_offset s + sum (map (fun i => ceil_div (isize t i) (sp_align t)) is_) /\
    (exists evs, w_log w1 = w_log w ++ evs /\ requested evs + 2 * seq_capacity s * per_offset <= 2 * seq_capacity s1 * per_offset) /\
    seq_capacity s <= seq_capacity s1 <= N.max (seq_capacity s) (N.max (2 * (seq_offset s + sum (map (fun i => ceil_div (isize t i) (sp_align t)) is_))) (ceil_div 32 (sp_align t))) ->
    seq_offset s2 <= seq_offset s + sum (map (fun i => ceil_div (isize t i) (sp_align t)) (is_ ++ [i])) /\
    (exists evs, w_log w2 = w_log w ++ evs /\ requested evs + 2 * seq_capacity s * per_offset <= 2 * seq_capacity s2 * per_offset) /\
    seq_capacity s <= seq_capacity s2 <= N.max (seq_capacity s) (N.max (2 * (seq_offset s + sum (map (fun i => ceil_div (isize t i) (sp_align t)) (is_ ++ [i])))) (ceil_div 32 (sp_align t)))).
  { intros l w1 s1 i w2 s2 vs1 ok H1 Hr (evs2 & L2 & G1 & G2) Hocc (I1 & (evs1 & L1 & I2) & I3).
    rewrite Hsum. fold (icells t i) in *. unfold ceil_div at 2 4. change ((isize t i + (sp_align t - 1)) / sp_align t) with (icells t i).
    unfold seq_offset, seq_capacity in *. split; [lia|].
    assert (Hlog : w_log w2 = w_log w ++ evs1 ++ evs2) by (rewrite L2, L1, app_assoc; reflexivity).
    destruct (shist_inv t chk w1 s1 vs1 old Hwf Hz H1) as (Hat1 & _).
    assert (Hoc1 : s_occ s1 <= s_cap s1) by apply Hat1.
    destruct (N.leb_spec (s_occ s1 + icells t i) (s_cap s1)) as [Hle|Hgt].
    - destruct (G1 Hle) as (A & B & C & D). split; [|lia]. exists (evs1 ++ evs2). split; [exact Hlog|].
      rewrite requested_app, (requests_0 _ C), A. lia.
    - destruct (G2 Hgt) as [(A & B & C)|(A & -> & C)].
      + pose proof (new_cap_ge t (s_occ s1 + icells t i) (s_cap s1)) as [N1 N2]. rewrite <- A in N1, N2.
        pose proof (storage_cost t chk (s_cap s2)) as Hst. change (byte_cost t chk) with per_offset in Hst. split.
        * exists (evs1 ++ evs2). split; [exact Hlog|]. rewrite requested_app, C. nia.
        * split; [lia|]. rewrite A. unfold new_cap.
          replace ((32 + sp_align t - 1) / sp_align t) with (ceil_div 32 (sp_align t)).
          -- lia.
          -- unfold ceil_div. pose proof (sp_align_pos t Hwf). f_equal. lia.
      + split; [|lia]. exists (evs1 ++ evs2). split; [exact Hlog|]. rewrite requested_app, (requests_0 _ C). lia. }
  assert (Hocc : forall w1 s1 i vs1, shist t chk w1 s1 vs1 old -> push_ready w1 t chk s1 i ->
    match seq_push t chk i (w1, s1) with Ok _ (w2, s2) | Panic (w2, s2) => s_occ s2 <= s_occ s1 + icells t i | UB _ => False end).
  { intros w1 s1 i vs1 H1 Hr. destruct (shist_inv t chk w1 s1 vs1 old Hwf Hz H1) as (Hat1 & Hbl1 & _).
    pose proof (push_inv_ok t chk w1 s1 i vs1 Hwf Hz Hbl1 Hat1 Hr) as HPI.
    destruct (seq_push t chk i (w1, s1)) as [u [w2 s2]|[w2 s2]|]; [| |exact HPI].
    - destruct HPI as (v & Ev & (_ & P2 & _) & _). rewrite P2, total_app. cbn [total]. destruct Hat1 as (_ & -> & _).
      destruct (proj1 ival_ok_all t Hwf i v (proj1 Hr) Ev) as [_ Hsh]. unfold cells, icells, vsize, isize. rewrite Hsh. lia.
    - destruct HPI as ((_ & P2 & _) & _). rewrite P2. destruct Hat1 as (_ & -> & _). lia. }
  induction HP as [|is_ w1 s1 i w2 s2 HP IH Hr E|is_ w1 s1 i w2 s2 HP IH Hr E].
  - split; [eauto|]. cbn. split; [lia|]. split; [|lia]. exists []. rewrite app_nil_r. cbn. split; [reflexivity|lia].
  - destruct IH as ((vs1 & H1) & IH). destruct (shist_inv t chk w1 s1 vs1 old Hwf Hz H1) as (Hat1 & Hbl1 & _).
    pose proof (push_growth t chk w1 s1 i vs1 Hwf Hz Hbl1 Hat1 Hr) as HG. pose proof (C15_push_defined t chk w1 s1 vs1 old i Hwf Hz H1 Hr) as HD.
    pose proof (Hocc w1 s1 i vs1 H1 Hr) as HO. rewrite E in HG, HD, HO. destruct HD as (v & _ & HD). split; [eauto|]. apply (Hstep is_ w1 s1 i w2 s2 vs1 true H1 Hr HG HO IH).
  - destruct IH as ((vs1 & H1) & IH). destruct (shist_inv t chk w1 s1 vs1 old Hwf Hz H1) as (Hat1 & Hbl1 & _).
    pose proof (push_growth t chk w1 s1 i vs1 Hwf Hz Hbl1 Hat1 Hr) as HG. pose proof (C15_push_defined t chk w1 s1 vs1 old i Hwf Hz H1 Hr) as HD.
    pose proof (Hocc w1 s1 i vs1 H1 Hr) as HO. rewrite E in HG, HD, HO. split; [eauto|]. apply (Hstep is_ w1 s1 i w2 s2 vs1 false H1 Hr HG HO IH).
Qed.
(** From an empty sequence: fewer than 4 times the pushed bytes (rounded up to offsets), plus a
    constant. *)
Corollary C21_from_new : forall t chk w is_ w' s',
  wf_ty t -> nonzst t -> wf_blocks (w_blocks w) -> pushes t chk w (seq_new t) is_ w' s' ->
  let per_offset := sp_align t + (if chk then 1 else 0) in
  let pushed := sum (map (fun i => ceil_div (isize t i) (sp_align t)) is_) in
  exists evs, w_log w' = w_log w ++ evs /\
    bytes_requested evs <= 2 * per_offset * N.max (2 * pushed) (ceil_div 32 (sp_align t)).
Proof.
  intros t chk w is_ w' s' Hwf Hz Hbl HP. cbv zeta.
  destruct (C21_amortised t chk w (seq_new t) [] [] is_ w' s' Hwf Hz (S_new t chk w Hbl) HP) as [(evs & El & Hb) [_ Hc]].
  exists evs. split; [exact El|]. cbn [seq_new seq_capacity s_cap seq_offset s_occ] in Hb, Hc. rewrite N.add_0_l, N.max_0_l in Hc. nia.
Qed.
Example C21_meets : exists w' s' evs, pushes (TStr LU8) true w_start (seq_new (TStr LU8)) (repeat (si (repeat 97 20)) 9) w' s' /\
  w_log w' = w_log w_start ++ evs /\ reqs evs = [(36, false); (72, true); (144, true); (288, true)].
Proof.
  assert (G : forall l w s w' s', Forall (closed (TStr LU8)) l -> seq_extend (TStr LU8) true l (w, s) = Ok tt (w', s') ->
     forall w0 s0 pre, pushes (TStr LU8) true w0 s0 pre w s -> pushes (TStr LU8) true w0 s0 (pre ++ l) w' s').
  { induction l as [|i l IH]; intros w s w' s' Hl E w0 s0 pre HP; unfold seq_extend in *; cbn [for_each] in E.
    - unfold ret in E. injection E as <- <-. now rewrite app_nil_r.
    - inversion Hl as [|? ? H1 H2]; subst. unfold bind in E. destruct (seq_push (TStr LU8) true i (w, s)) as [[] [w1 s1]| |] eqn:E1; try discriminate.
      replace (pre ++ i :: l) with ((pre ++ [i]) ++ l) by (rewrite <- app_assoc; reflexivity).
      eapply IH; [exact H2|exact E|]. eapply P_ok; [exact HP|apply closed_ready, H1|exact E1]. }
  assert (X : match seq_extend (TStr LU8) true (repeat (si (repeat 97 20)) 9) (w_start, seq_new (TStr LU8)) with
    Ok _ (w', s') => reqs (w_log w') = [(36, false); (72, true); (144, true); (288, true)] | _ => False end) by (vm_compute; reflexivity).
  destruct (seq_extend (TStr LU8) true (repeat (si (repeat 97 20)) 9) (w_start, seq_new (TStr LU8))) as [[] [w' s']| |] eqn:E; [|contradiction|contradiction].
  exists w', s', (w_log w'). split; [|split; [reflexivity|exact X]].
  refine (G (repeat (si (repeat 97 20)) 9) w_start (seq_new (TStr LU8)) w' s' _ E w_start (seq_new (TStr LU8)) [] (P_nil _ _ _ _)).
  repeat constructor; apply closed_si; reflexivity.
Qed.

(** ** C22 *)
(** [drain t chk s vs w it rest]: take_elems was called on a sequence [s] with elements [vs]; so far
    some of the elements have been obtained from the iterator [it], [rest] have not. In between
    anything may happen that leaves the bytes of the elements not yet obtained alone (the elements
    already obtained may be mutated, dropped or forgotten). *)
Inductive drain (t : vty) (chk : bool) : list vval -> world -> iter -> list vval -> Prop :=
| D_take : forall w s vs old it w' s',
    shist t chk w s vs old -> take_elems t chk (w, s) = Ok it (w', s') -> drain t chk vs w' it vs
| D_next : forall vs w it v rest a it',
    drain t chk vs w it (v :: rest) -> iter_next t it w = Ok (Some a, it') w -> drain t chk vs w it' rest
| D_env : forall vs w it rest w',
    drain t chk vs w it rest ->
    (forall x, it_ptr it <= x < it_ptr it + total t rest * sp_align t -> w_mem w' x = w_mem w x) ->
    (forall a n, it_ptr it <= a -> a + n <= it_ptr it + total t rest * sp_align t -> live (w_blocks w) a n -> live (w_blocks w') a n) ->
    drain t chk vs w' it rest.
Lemma drain_inv t chk vs w it rest : wf_ty t -> nonzst t -> drain t chk vs w it rest ->
  iter_at w t it rest /\ exists k, rest = skipn k vs.
Proof.
  intros Hwf Hz. induction 1 as [w s vs old it w' s' H E|vs w it v rest a it' H [IH (k & Ek)] E|vs w it rest w' H [IH (k & Ek)] Hm Hl].
  - destruct (shist_inv t chk w s vs old Hwf Hz H) as (Hat & Hbl & _).
    destruct (take_elems_ok w t chk s vs Hwf Hbl Hat) as (w1 & it1 & E1 & _ & Hit & _). rewrite E in E1. injection E1 as -> -> _.
    split; [exact Hit|]. exists 0%nat. reflexivity.
  - destruct (iter_next_cons w t it v rest Hwf IH) as (it1 & E1 & Hit & _). rewrite E in E1. injection E1 as _ ->.
    split; [exact Hit|]. exists (S k). clear -Ek. revert vs Ek; induction k as [|k IH]; intros [|x vs] Ek; cbn in *; try discriminate; [congruence|]. now apply IH.
  - split; [|eauto]. destruct IH as (I1 & I2 & I3). split; [exact I1|]. split; [exact I2|]. eapply objs_range; eauto.
Qed.
(** take_elems returns at once with the sequence empty and its capacity kept; memory, blocks and log
    are as before (nothing is dropped or freed). *)
Theorem C22_take_elems : forall t chk w s vs old,
  wf_ty t -> nonzst t -> shist t chk w s vs old ->
  exists it w' s', take_elems t chk (w, s) = Ok it (w', s') /\
    seq_len s' = 0 /\ seq_offset s' = 0 /\ seq_capacity s' = seq_capacity s /\ seq_contents t s' w' = Ok [] w' /\
    w_log w' = w_log w /\ w_blocks w' = w_blocks w /\ (forall x, w_mem w' x = w_mem w x) /\
    drain t chk vs w' it vs.
Proof.
  intros t chk w s vs old Hwf Hz H. destruct (shist_inv t chk w s vs old Hwf Hz H) as (Hat & Hbl & _).
  destruct (take_elems_ok w t chk s vs Hwf Hbl Hat) as (w1 & it & E1 & (S1 & S2 & S3 & S4 & S5) & Hit & _ & Hat').
  exists it, w1, (mkS (s_ptr s) 0 0 (s_cap s)). split; [exact E1|]. do 3 (split; [reflexivity|]).
  split; [eapply seq_contents_ok; eauto; rewrite S2; exact Hbl|]. split; [exact S5|]. split; [exact S2|]. split; [exact S1|]. eapply D_take; eauto.
Qed.
(** At every point of the iteration: the next item is the next element in order; when the iterator
    is dropped exactly the elements not yet handed out are dropped, each once, in order. *)
Theorem C22_drain : forall t chk vs w it rest,
  wf_ty t -> nonzst t -> drain t chk vs w it rest ->
  (exists k, rest = skipn k vs) /\ iter_len it = len rest /\
  match rest with
  | [] => iter_next t it w = Ok (None, it) w
  | v :: rest' => exists a it', iter_next t it w = Ok (Some a, it') w /\ view t a w = Ok v w /\
      drain t chk vs w it' rest'
  end /\
  exists w', owned_elems_drop t it w = Ok tt w' /\
    w_log w' = w_log w ++ map EDrop (concat (map (vdrops t) rest)) /\
    w_mem w' = w_mem w /\ w_blocks w' = w_blocks w.
Proof.
  intros t chk vs w it rest Hwf Hz H. destruct (drain_inv t chk vs w it rest Hwf Hz H) as [Hit Hk].
  split; [exact Hk|]. split; [apply Hit|]. split.
  - destruct rest as [|v rest]; [now apply iter_next_nil|].
    destruct (iter_next_cons w t it v rest Hwf Hit) as (it' & E & _ & _). exists (it_ptr it), it'. split; [exact E|].
    split; [apply view_ok; [auto|]; apply Hit|]. eapply D_next; eauto.
  - eexists. split; [apply (owned_elems_drop_ok w t it rest Hwf Hit)|]. cbn. auto.
Qed.

(** An element that was handed out is a live object that belongs to the caller: dropping it drops its
    own parts only (C14), and the iterator goes on undisturbed. *)
Theorem C22_taken_element_drop : forall t chk vs w it v rest a it',
  wf_ty t -> nonzst t -> drain t chk vs w it (v :: rest) -> iter_next t it w = Ok (Some a, it') w ->
  exists w', owned_drop t a w = Ok tt w' /\ w_log w' = w_log w ++ map EDrop (vdrops t v) /\ drain t chk vs w' it' rest.
Proof.
  intros t chk vs w it v rest a it' Hwf Hz H E. destruct (drain_inv t chk vs w it _ Hwf Hz H) as [Hit _].
  destruct (iter_next_cons w t it v rest Hwf Hit) as (it1 & E1 & Hit1 & Ei). rewrite E in E1. injection E1 as -> <-.
  destruct Hit as (_ & _ & [Ho _]). eexists. split; [apply (owned_drop_ok t w (it_ptr it) v Hwf Ho)|]. split; [reflexivity|].
  eapply D_env; [eapply D_next; eauto| |]; auto.
Qed.
Example C22_meets : exists w s, shist t_ex true w s [v_ex; v_ex] [] /\ vdrops t_ex v_ex = [h1; h2; h3].
Proof.
  destruct (hist_shist t_ex true _ _ _ t_ex_wf t_ex_nonzst (h_structs true)) as (vs & Hi & Hs).
  assert (vs = [v_ex; v_ex]) as -> by (apply (ivalues_inj t_ex [i_ex; i_ex]); [exact Hi|reflexivity]).
  eexists _, _. split; [exact Hs|]. vm_compute. reflexivity.
Qed.

(** ** C23 *)
(** Dropping a sequence drops the parts of every element once, in order, then returns the storage with
    the size and alignment of the live block (the one it was last allocated or reallocated with); a
    sequence that never grew frees nothing. No other block is affected. *)
Theorem C23_seq_drop : forall t chk w s vs old,
  wf_ty t -> nonzst t -> shist t chk w s vs old ->
  exists w' s', seq_drop t chk (w, s) = Ok tt (w', s') /\ (forall x, w_mem w' x = w_mem w x) /\
  ((seq_capacity s = 0 /\ vs = [] /\ w_log w' = w_log w /\ w_blocks w' = w_blocks w) \/
   (0 < seq_capacity s /\ exists n al, In (mkB (s_ptr s) n al true) (w_blocks w) /\
      w_log w' = w_log w ++ map EDrop (concat (map (vdrops t) vs)) ++ [EDealloc (s_ptr s) n al] /\
      (forall b, In b (w_blocks w') <-> In b (w_blocks w) /\ b_base b <> s_ptr s))).
Proof.
  intros t chk w s vs old Hwf Hz H. destruct (shist_inv t chk w s vs old Hwf Hz H) as (Hat & Hbl & _).
  destruct (seq_drop_ok w t chk s vs Hwf Hbl Hat) as (w' & s' & E & U). exists w', s'. split; [exact E|].
  split; [intros x; apply (upd_mem _ _ _ _ _ _ U); lia|].
  pose proof (upd_log_eq _ _ _ _ _ _ U) as El. pose proof (upd_blocks _ _ _ _ _ _ U) as Eb. unfold seq_base, seq_free in *.
  destruct Hat as (A1 & A2 & A3 & [[[E0 _] ->]|(B1 & B2 & B3 & B4 & B5 & B6)]).
  - left. rewrite E0 in *. cbn in El, Eb. rewrite app_nil_r in El. rewrite without_nil in Eb. auto.
  - right. unfold seq_capacity. split; [exact B1|]. destruct (N.eqb_spec (s_cap s) 0); [lia|].
    exists (storage_bytes t chk (s_cap s)), (sp_align t). split; [exact B2|]. split; [exact El|].
    intros b. rewrite Eb, in_without. cbn [In]. split; intros [H1 H2]; split; auto. intros [X|[]]. congruence.
Qed.
(** The storage block is the one that the last growth obtained: right after a push that grew, it has
    exactly the requested size, and nothing but a growth changes it (C42). *)
Example C23_meets : exists w s vs, shist t_ex false w s vs [] /\ 0 < seq_capacity s /\ concat (map (vdrops t_ex) vs) = [h1;h2;h3;h1;h2;h3].
Proof.
  destruct (hist_shist t_ex false _ _ _ t_ex_wf t_ex_nonzst (h_structs false)) as (vs & Hi & Hs).
  assert (vs = [v_ex; v_ex]) as -> by (apply (ivalues_inj t_ex [i_ex; i_ex]); [exact Hi|reflexivity]).
  eexists _, _, _. split; [exact Hs|]. split; vm_compute; reflexivity.
Qed.
