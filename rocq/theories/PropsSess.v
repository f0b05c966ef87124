(** PropsSess.v - C59: programs that keep take_elems iterators, and the elements taken from them, alive
    while they do other things. *)
From Verif Require Import SessDone.
From Verif Require Import PropsProgram.

(** Any program over the safe API, with any number of live take_elems iterators and taken elements, that
    does one more allowed thing: no undefined behaviour, the outcome, the values destroyed and the new
    state are those of the account in SessSpec.v. (Exception as in C45: VBox::new when the global
    allocator refuses.) *)
Theorem C59_session_safe : forall w sl xs σ ax n o,
  reach_x w sl xs σ ax n -> xallowed σ ax o ->
  match xexec o (w, sl, xs) with
  | Ok r (w', sl', xs') => exists σ' ax' evs, w_log w' = w_log w ++ evs /\ xstep σ ax o (Done r) (σ', ax') (drops_of evs) /\
      reach_x w' sl' xs' σ' ax' (match o with XOp (OForget _) => S n | _ => n end)
  | Panic (w', sl', xs') => exists σ' ax' evs, w_log w' = w_log w ++ evs /\ xstep σ ax o Panicked (σ', ax') (drops_of evs) /\
      reach_x w' sl' xs' σ' ax' (match o with XOp (ONewBox _ _) => S n | _ => n end)
  | UB u => u = UNull /\ exists t p i, o = XOp (ONewBox t p) /\ den σ t p i /\
      forall a, w_alloc w (w_tick w) (isize t i) (sp_align t) = Some a ->
        valid_answer (w_blocks w) a (isize t i) (sp_align t) = false
  end.
Proof.
  intros w sl xs σ ax n o HR Hal. pose proof (xexec_ok w sl xs σ ax n o (reach_x_inv _ _ _ _ _ _ HR) Hal) as H.
  destruct (xexec o (w, sl, xs)) as [r [[w' sl'] xs']|[[w' sl'] xs']|u] eqn:E; cbn [xstep_res] in H; unfold xstep_ok in H.
  - destruct H as (σ' & ax' & evs & A & L & _). exists σ', ax', evs. split; [exact L|]. split; [exact A|]. eapply RX_done; eauto.
  - destruct H as (σ' & ax' & evs & A & L & _). exists σ', ax', evs. split; [exact L|]. split; [exact A|]. eapply RX_panic; eauto.
  - destruct H as (-> & o' & -> & t & p & i & -> & H). split; [reflexivity|]. exists t, p, i. split; [reflexivity|exact H].
Qed.

(** Everything the program holds - boxes, elements taken from iterators, sequences that are not borrowed -
    reads back as the account says, and reading changes nothing. *)
Theorem C59_reads_back : forall w sl xs σ ax n,
  reach_x w sl xs σ ax n ->
  (forall pl t v, at_place σ pl = Some (t, v) -> xexec (XOp (ORead pl)) (w, sl, xs) = Ok (OutVal v) (w, sl, xs)) /\
  (forall h t chk vs old, nth_error σ h = Some (ASeq t chk vs old) ->
     xexec (XOp (OReadSeq h)) (w, sl, xs) = Ok (OutVals vs) (w, sl, xs)).
Proof.
  intros w sl xs σ ax n HR. pose proof (reach_x_inv _ _ _ _ _ _ HR) as HX. split.
  - intros pl t v Hp. pose proof (xexec_ok w sl xs σ ax n (XOp (ORead pl)) HX (XL_op _ _ _ (L_read _ _ _ _ Hp))) as H. cbn [xexec exec] in *.
    destruct (call _ _ sl w) as [r [w' sl']|[w' sl']|u] eqn:E; cbn [xstep_res] in H.
    + destruct H as (σ' & ax' & evs & A & _). inversion A as [? ? ? ? A0| | | | | |]; subst. inversion A0; subst.
      rewrite Hp in *. match goal with X : Some _ = Some _ |- _ => injection X as <- <- end.
      assert (w' = w) as -> by (eapply still_call; [|exact E]; still). unfold call in E. match type of E with match ?m with _ => _ end = _ => destruct m end; inversion E; subst; reflexivity.
    + destruct H as (σ' & ax' & evs & A & _). inversion A as [? ? ? ? A0| | | | | |]; subst. inversion A0.
    + destruct H as (_ & o' & [= <-] & t' & p & i & [=] & _).
  - intros h t chk vs old Hh. pose proof (xexec_ok w sl xs σ ax n (XOp (OReadSeq h)) HX (XL_op _ _ _ (L_read_seq _ _ _ _ _ _ Hh))) as H. cbn [xexec exec] in *.
    destruct (nth_error sl h) as [[| |t' c' s|]|]; try (destruct H as [H _]; discriminate).
    destruct (call _ _ sl w) as [r [w' sl']|[w' sl']|u] eqn:E; cbn [xstep_res] in H.
    + destruct H as (σ' & ax' & evs & A & _). inversion A as [? ? ? ? A0| | | | | |]; subst. inversion A0; subst.
      match goal with X : nth_error σ' h = Some _ |- _ => rewrite Hh in X; injection X as <- <- <- <- end.
      assert (w' = w) as -> by (eapply still_call; [|exact E]; still). unfold call in E. match type of E with match ?m with _ => _ end = _ => destruct m end; inversion E; subst; reflexivity.
    + destruct H as (σ' & ax' & evs & A & _). inversion A as [? ? ? ? A0| | | | | |]; subst. inversion A0.
    + destruct H as (_ & o' & [= <-] & t0 & p & i & [=] & _).
Qed.

(** Live allocations are disjoint; every box, sequence and borrowed sequence owns a live heap allocation
    of its own; every live heap allocation belongs to a value the program holds or to a borrowed
    sequence, except for at most one per VBox::new whose initializer panicked and one per value given to
    mem::forget. Forgetting an iterator leaks no allocation: it goes back to the sequence. *)
Theorem C59_no_leak : forall w sl xs σ ax n,
  reach_x w sl xs σ ax n ->
  wf_blocks (w_blocks w) /\
  (forall h s a, nth_error sl h = Some s -> In a (slot_bases s) -> exists b, In b (w_blocks w) /\ b_base b = a /\ b_heap b = true) /\
  (forall k x a, nth_error xs k = Some (Some x) -> In a (seq_base (x_s x)) ->
     In (seq_block (x_t x) (x_chk x) (x_s x)) (w_blocks w) /\ b_base (seq_block (x_t x) (x_chk x) (x_s x)) = a) /\
  (forall h s k x a, nth_error sl h = Some s -> nth_error xs k = Some (Some x) -> In a (slot_bases s) -> ~ In a (seq_base (x_s x))) /\
  exists leaked, (length leaked <= n)%nat /\
    forall b, In b (w_blocks w) -> b_heap b = true ->
      In (b_base b) leaked \/ (exists h s, nth_error sl h = Some s /\ In (b_base b) (slot_bases s)) \/
      (exists k x, nth_error xs k = Some (Some x) /\ In (b_base b) (seq_base (x_s x))).
Proof.
  intros w sl xs σ ax n HR. destruct (reach_x_inv _ _ _ _ _ _ HR) as (wv & slv & σv & gs & HRw & HG & HI & -> & -> & HN & HH & HE).
  pose proof HRw as (_ & _ & _ & _ & Hwf & Hwfv & Hd & Hd2). pose proof HI as (_ & Hlen & Hrep & Hdis & L & HL & Hleak).
  destruct HE as (L1 & L2 & HE).
  assert (Hhid : forall h s v, In h (hidden xs) -> at_h slv σv h s v -> forall b, In b (hblocks s v) -> b_heap b = false).
  { intros h s v Hi [Hs Hv] b Hb. apply in_hidden in Hi. destruct Hi as (k & x & Hx & Hh).
    destruct (nth_error ax k) as [a|] eqn:Ea; [|apply nth_error_None in Ea; assert (k < length xs)%nat by (apply nth_error_Some; congruence); lia].
    destruct (nth_error gs k) as [g|] eqn:Eg; [|apply nth_error_None in Eg; assert (k < length xs)%nat by (apply nth_error_Some; congruence); unfold division in *; lia].
    pose proof (HE k _ _ g Hx Ea Eg) as He. destruct a as [a|]; cbn [entry] in He; [|contradiction]. destruct He as (_ & _ & (bytes & [B1 B2] & _) & _ & S5 & S6).
    destruct Hh as [->|Hh].
    - rewrite Hs in B1. injection B1 as ->. rewrite Hv in B2. injection B2 as ->. cbn [hblocks] in Hb. destruct (_ =? 0); [contradiction|]. destruct Hb as [<-|[]]. reflexivity.
    - destruct (S6 h (S5 h Hh)) as [[E|[p E]] _]; rewrite Hs in E; injection E as ->.
      + destruct v; cbn [hblocks] in Hb; contradiction.
      + destruct v; cbn [hblocks] in Hb; try contradiction. destruct (_ =? 0); [contradiction|]. destruct Hb as [<-|[]]. reflexivity. }
  assert (Hb : forall s v, rep wv s v -> forall a, In a (slot_bases s) -> exists b, In b (hblocks s v) /\ b_base b = a /\ b_heap b = true).
  { intros s v Hr a Ha. destruct s as [t p|t p|t c s|], v as [t' x|t' x|t' c' vs old|]; cbn [rep slot_bases hblocks] in *; try contradiction.
    - destruct Ha as [<-|[]]. eexists. split; [left; reflexivity|]. split; reflexivity.
    - unfold seq_base in Ha. destruct (s_cap s =? 0); [contradiction|]. destruct Ha as [<-|[]]. eexists. split; [left; reflexivity|]. split; reflexivity. }
  assert (Hkept : forall b, In b (w_blocks wv) -> b_heap b = true -> In b (w_blocks w) /\ ~ In b (map fst (concat gs))).
  { intros b Hin Hh. apply Hd in Hin. destruct Hin as [X|(g & Hg & Hc)]; [exact X|]. destruct (proj2 (Hd2 g Hg) b Hc) as [X _]. congruence. }
  assert (Hsl : forall h s, nth_error (kill slv (hidden xs)) h = Some s -> slot_bases s = [] \/ exists v, at_h slv σv h s v).
  { intros h s Hs. rewrite nth_kill_slot in Hs. destruct (in_dec _ _ _) as [Hi|Hn].
    - destruct (nth_error slv h); [|discriminate]. injection Hs as <-. left. reflexivity.
    - right. assert (h < length σv)%nat by (rewrite <- Hlen; apply nth_error_Some; congruence).
      destruct (nth_error σv h) as [v|] eqn:Ev; [exists v; split; auto|apply nth_error_None in Ev; lia]. }
  assert (Hx : forall k x, nth_error xs k = Some (Some x) -> s_cap (x_s x) <> 0 -> exists g tiles, In g (concat gs) /\ g = (seq_block (x_t x) (x_chk x) (x_s x), tiles)).
  { intros k x Hx Hc. destruct (nth_error ax k) as [a|] eqn:Ea; [|apply nth_error_None in Ea; assert (k < length xs)%nat by (apply nth_error_Some; congruence); lia].
    destruct (nth_error gs k) as [g|] eqn:Eg; [|apply nth_error_None in Eg; assert (k < length xs)%nat by (apply nth_error_Some; congruence); unfold division in *; lia].
    pose proof (HE k _ _ g Hx Ea Eg) as He. destruct a as [a|]; cbn [entry] in He; [|contradiction]. destruct He as (_ & _ & _ & S4 & _).
    destruct S4 as [(E0 & _)|(_ & _ & _ & tiles & Et & _)]; [contradiction|]. eexists _, tiles. split; [|reflexivity]. apply in_concat. exists g. split; [eapply nth_error_In, Eg|]. rewrite Et. left. reflexivity. }
  split; [exact Hwf|]. split; [|split; [|split]].
  - intros h s a Hs Ha. destruct (Hsl h s Hs) as [E|(v & Hah)]; [rewrite E in Ha; contradiction|].
    destruct (Hb s v (Hrep _ _ _ Hah) a Ha) as (b & B1 & B2 & B3). exists b. split; [|auto].
    apply Hkept; [eapply rep_blocks; eauto|exact B3].
  - intros k x a Hk Ha. unfold seq_base in Ha. destruct (N.eqb_spec (s_cap (x_s x)) 0) as [|Hc]; [contradiction|]. destruct Ha as [<-|[]].
    destruct (Hx k x Hk Hc) as (g & tiles & Hg & ->). split; [exact (proj1 (Hd2 _ Hg))|reflexivity].
  - intros h s k x a Hs Hk Ha Ha'. unfold seq_base in Ha'. destruct (N.eqb_spec (s_cap (x_s x)) 0) as [|Hc]; [contradiction|]. destruct Ha' as [<-|[]].
    destruct (Hx k x Hk Hc) as (g & tiles & Hg & ->). destruct (Hsl h s Hs) as [E|(v & Hah)]; [rewrite E in Ha; contradiction|].
    destruct (Hb s v (Hrep _ _ _ Hah) _ Ha) as (b & B1 & B2 & B3). destruct (Hkept b) as [K1 K2]; [eapply rep_blocks; eauto|exact B3|].
    apply K2. apply in_map_iff. eexists. split; [|exact Hg]. cbn [fst]. eapply (wf_same_base (w_blocks w)); [exact Hwf|exact (proj1 (Hd2 _ Hg))|exact K1|]. rewrite B2. reflexivity.
  - exists L. split; [exact HL|]. intros b Hin Hh. destruct (in_dec block_dec b (map fst (concat gs))) as [Hi|Hn].
    + right. right. apply in_map_iff in Hi. destruct Hi as (g & <- & Hg). apply in_concat in Hg. destruct Hg as (l & Hl & Hg). apply In_nth_error in Hl. destruct Hl as (k & Hk).
      assert (Hkl : (k < length xs)%nat) by (unfold division in *; rewrite L2; apply nth_error_Some; congruence).
      destruct (nth_error xs k) as [x|] eqn:Ex; [|apply nth_error_None in Ex; lia]. destruct (nth_error ax k) as [a|] eqn:Ea; [|apply nth_error_None in Ea; lia].
      pose proof (HE k _ _ l Ex Ea Hk) as He. destruct x as [x|], a as [a|]; cbn [entry] in He; try contradiction; [|subst l; contradiction].
      destruct He as (_ & _ & _ & S4 & _). destruct S4 as [(_ & _ & ->)|(C & _ & _ & tiles & -> & _)]; [contradiction|]. destruct Hg as [<-|[]].
      exists k, x. split; [exact Ex|]. unfold seq_base. destruct (N.eqb_spec (s_cap (x_s x)) 0); [lia|]. left. reflexivity.
    + assert (Hbv : In b (w_blocks wv)) by (apply Hd; left; split; auto).
      destruct (Hleak b Hbv Hh) as [X|(h & s & v & Hah & Hy)]; [left; exact X|right; left].
      pose proof (hblock_base wv s v b Hwfv (Hrep _ _ _ Hah) Hbv Hy) as Hb'.
      destruct (in_dec Nat.eq_dec h (hidden xs)) as [Hi|Hni]; [rewrite (Hhid h s v Hi Hah b Hb') in Hh; discriminate|].
      exists h, s. split; [rewrite nth_kill_slot; destruct (in_dec _ _ _); [contradiction|apply Hah]|].
      destruct s as [t p|t p|t c s|], v as [t' x|t' x|t' c' vs old|]; cbn [slot_bases hblocks] in *; try contradiction.
      * destruct Hb' as [<-|[]]. left. reflexivity.
      * destruct (vsize t x =? 0); [contradiction|]. destruct Hb' as [<-|[]]. discriminate.
      * unfold seq_base. destruct (s_cap s =? 0); [contradiction|]. destruct Hb' as [<-|[]]. left. reflexivity.
Qed.
(** When nothing was forgotten except iterators, no VBox::new panicked, all boxes and sequences are gone
    and no sequence is borrowed, no heap allocation is left. *)
Theorem C59_all_freed : forall w sl xs σ ax,
  reach_x w sl xs σ ax 0 -> (forall h s, nth_error sl h = Some s -> slot_bases s = []) -> (forall k x, nth_error xs k = Some (Some x) -> False) ->
  forall b, In b (w_blocks w) -> b_heap b = false.
Proof.
  intros w sl xs σ ax HR Hd Hx b Hb. destruct (b_heap b) eqn:Hh; [|reflexivity].
  destruct (C59_no_leak w sl xs σ ax 0 HR) as (_ & _ & _ & _ & L & HL & H). destruct L; [|cbn in HL; lia].
  destruct (H b Hb Hh) as [[]|[(h & s & Hs & Hin)|(k & x & Hk & _)]]; [rewrite (Hd h s Hs) in Hin; destruct Hin|destruct (Hx k x Hk)].
Qed.

(** ** the storage goes back to the sequence *)
Inductive xruns (c : xconfig) : xconfig -> Prop :=
| XR_here : xruns c c
| XR_done : forall c1 o r c2, xruns c c1 -> xexec o c1 = Ok r c2 -> xruns c c2
| XR_panic : forall c1 o c2, xruns c c1 -> xexec o c1 = Panic c2 -> xruns c c2.
Definition held (h : nat) (t : vty) (chk : bool) (s : sq) (k : nat) (c : xconfig) : Prop :=
  (h < length (snd (fst c)))%nat /\
  exists o, nth_error (snd c) k = Some o /\ forall x, o = Some x -> x_h x = h /\ x_t x = t /\ x_chk x = chk /\ x_s x = s.
Lemma held_step h t chk s k o c : held h t chk s k c ->
  match xexec o c with Ok _ c' | Panic c' => held h t chk s k c' | UB _ => True end.
Proof.
  destruct c as [[w sl] xs]. intros (Hl & q & Hq & Hk). cbn [fst snd] in *.
  assert (Hup : forall sl' w' j y, (h < length sl')%nat -> (forall x0, nth_error xs j = Some (Some x0) -> match y with Some x => x_h x = x_h x0 /\ x_t x = x_t x0 /\ x_chk x = x_chk x0 /\ x_s x = x_s x0 | None => True end) ->
            (exists x0, nth_error xs j = Some (Some x0)) -> held h t chk s k (w', sl', update xs j y)).
  { intros sl' w' j y Hl' Hy (x0 & Hx0). split; [exact Hl'|]. cbn [fst snd]. rewrite nth_update. destruct (Nat.eq_dec j k) as [->|].
    - rewrite Hx0. cbn [option_map]. exists y. split; [reflexivity|]. intros x ->. destruct (Hy x0 Hx0) as (-> & -> & -> & ->). apply Hk. congruence.
    - exists q. split; auto. }
  assert (Hsame : forall w' sl', (h < length sl')%nat -> held h t chk s k (w', sl', xs)) by (intros w' sl' Hl'; split; [exact Hl'|exists q; auto]).
  destruct o as [o|h'|j|j|j keep|j]; cbn [xexec].
  - destruct (exec o (w, sl)) as [r [w' sl']|[w' sl']|u] eqn:E; [| |exact I]; apply Hsame; apply nth_error_Some.
    + destruct (slot_kind o w sl h (Done r) w' sl' Hl E) as [->|[->|(? & ? & ? & ? & _ & ->)]]; [apply nth_error_Some; exact Hl|discriminate|discriminate].
    + destruct (slot_kind o w sl h Panicked w' sl' Hl E) as [->|[->|(? & ? & ? & ? & _ & ->)]]; [apply nth_error_Some; exact Hl|discriminate|discriminate].
  - destruct (nth_error sl h') as [[| |t' c' s'|]|]; auto. destruct (take_elems t' c' (w, s')) as [it [w' s2]|[w' s2]|u]; [| |exact I].
    + split; cbn [fst snd]; [rewrite app_length, update_length; lia|]. exists q. split; [|exact Hk]. rewrite nth_error_app1; [exact Hq|]. apply nth_error_Some. congruence.
    + apply Hsame. rewrite update_length. exact Hl.
  - destruct (nth_error xs j) as [[[h' t' c' s' [it|] todo]|]|] eqn:Ej; auto. destruct (iter_next t' it w) as [[[a|] it'] w'|w'|u]; [| | |exact I].
    + destruct todo as [|i todo]; [exact I|]. apply Hup; [rewrite update_length; exact Hl| |eauto]. intros x0 E0. rewrite Ej in E0. injection E0 as <-. auto.
    + apply Hup; [exact Hl| |eauto]. intros x0 E0. rewrite Ej in E0. injection E0 as <-. auto.
    + apply Hsame. exact Hl.
  - destruct (nth_error xs j) as [[[h' t' c' s' [it|] todo]|]|]; auto.
  - destruct (nth_error xs j) as [[[h' t' c' s' [it|] todo]|]|] eqn:Ej; auto. destruct (_ w) as [? w'|w'|u]; [| |exact I];
      (apply Hup; [exact Hl| |eauto]; intros x0 E0; rewrite Ej in E0; injection E0 as <-; auto).
  - destruct (nth_error xs j) as [[[h' t' c' s' [it|] todo]|]|] eqn:Ej; auto. apply Hup; [rewrite update_length; exact Hl|auto|eauto].
Qed.
(** Whatever the program does between take_elems and the end of the borrow, the sequence gets its
    allocation back: same address and capacity, and it is empty. *)
Theorem C59_storage_back : forall w sl xs h t chk s r c1 w2 sl2 xs2 r' c3,
  nth_error sl h = Some (SSeq t chk s) ->
  xexec (XBegin h) (w, sl, xs) = Ok r c1 -> xruns c1 (w2, sl2, xs2) ->
  xexec (XUnlock (length xs)) (w2, sl2, xs2) = Ok r' c3 ->
  nth_error (snd (fst c3)) h = Some (SSeq t chk (mkS (s_ptr s) 0 0 (s_cap s))).
Proof.
  intros w sl xs h t chk s r c1 w2 sl2 xs2 r' c3 Hs E1 HR E2. cbn [xexec] in E1. rewrite Hs in E1.
  assert (Ht : forall w0, match take_elems t chk (w0, s) with Ok _ p => snd p = mkS (s_ptr s) 0 0 (s_cap s) | _ => True end).
  { intros w0. unfold take_elems, bind, get_sq, set_sq, lft. destruct (clear_bitmasks chk _ _ _ _ w0); cbn; auto. }
  specialize (Ht w). destruct (take_elems t chk (w, s)) as [it [w' s']|[w' s']|u]; [|discriminate|discriminate]. cbn [snd] in Ht. subst s'. injection E1 as <- <-.
  assert (Hl : (h < length sl)%nat) by (apply nth_error_Some; congruence).
  assert (Hh : held h t chk (mkS (s_ptr s) 0 0 (s_cap s)) (length xs) (w2, sl2, xs2)).
  { remember (w2, sl2, xs2) as c2 eqn:Ec. clear Ec E2. induction HR as [|c1 o r1 c2 HR IH E|c1 o c2 HR IH E].
    - split; cbn [fst snd]; [rewrite app_length, update_length; lia|]. eexists. split; [rewrite nth_error_app2, Nat.sub_diag by lia; reflexivity|].
      intros x [= <-]. auto.
    - pose proof (held_step _ _ _ _ _ o c1 IH) as X. rewrite E in X. exact X.
    - pose proof (held_step _ _ _ _ _ o c1 IH) as X. rewrite E in X. exact X. }
  destruct Hh as (Hl2 & q & Hq & Hk). cbn [fst snd] in *. cbn [xexec] in E2. rewrite Hq in E2. destruct q as [[h' t' c' s' [it'|] todo]|]; try discriminate.
  injection E2 as <- <-. destruct (Hk _ eq_refl) as (A & B & C & D). cbn in A, B, C, D. subst. cbn [fst snd]. rewrite nth_update. destruct (Nat.eq_dec h h); [|congruence].
  destruct (nth_error sl2 h) eqn:En; [reflexivity|apply nth_error_None in En; lia].
Qed.

(** Programs without iterators are a special case. *)
Lemma reach_reach_x w sl σ n : reach w sl σ n -> reach_x w sl [] σ [] n.
Proof.
  induction 1 as [w Hb|w sl σ n o r w' sl' σ' d H IH Hal E Hs|w sl σ n o w' sl' σ' d H IH Hal E Hs].
  - now constructor.
  - eapply (RX_done w sl [] σ [] n (XOp o) r w' sl' [] σ' [] d); [exact IH|now constructor|cbn [xexec]; now rewrite E|now constructor].
  - eapply (RX_panic w sl [] σ [] n (XOp o) w' sl' [] σ' [] d); [exact IH|now constructor|cbn [xexec]; now rewrite E|now constructor].
Qed.

(** ** a concrete program *)
Definition xout_of (r : res xconfig out) : option out := match r with Ok o _ => Some o | _ => None end.
Definition xstep_cfg (o : xop) (c : xconfig) : xconfig := match xexec o c with Ok _ c' | Panic c' => c' | UB _ => c end.
Definition at_x (c : xconfig) (σ : list aval) (ax : list (option asession)) (n : nat) : Prop := reach_x (fst (fst c)) (snd (fst c)) (snd c) σ ax n.
Lemma reach_xstep c σ ax n o r σ' ax' d : at_x c σ ax n -> xallowed σ ax o -> xout_of (xexec o c) = Some r ->
  xstep σ ax o (Done r) (σ', ax') d -> at_x (xstep_cfg o c) σ' ax' (match o with XOp (OForget _) => S n | _ => n end).
Proof.
  destruct c as [[w sl] xs]. unfold at_x, xstep_cfg. cbn [fst snd]. intros HR Hal Ho Hs. destruct (xexec o (w, sl, xs)) as [x [[w' sl'] xs']|[[w' sl'] xs']|] eqn:E; try discriminate. injection Ho as ->.
  cbn [fst snd]. eapply RX_done; eauto.
Qed.
(** Two sequences; their elements are taken out at the same time; an element of the first is changed,
    cloned into the second (after its borrow has ended) and destroyed; the rest of the second iterator is
    dropped, the first iterator is forgotten with an element in it; then both sequences are used again. *)
Definition x0 : xconfig := (c6, []).
Definition x1 := xstep_cfg (XOp (ONewSeq t_tup false)) x0.
Definition x2 := xstep_cfg (XOp (OPush 2 (PClone (PlElem 1 0 PHere)))) x1.
Definition x3 := xstep_cfg (XBegin 1) x2.
Definition x4 := xstep_cfg (XNext 0) x3.
Definition x5 := xstep_cfg (XBegin 2) x4.
Definition x6 := xstep_cfg (XOp (OAssign (PlObj 3 (PFld 0 PHere)) (PIdx 1) h3)) x5.
Definition x7 := xstep_cfg (XNext 1) x6.
Definition x8 := xstep_cfg (XOp (ODrop 5)) x7.
Definition x9 := xstep_cfg (XEnd 1 false) x8.
Definition x10 := xstep_cfg (XUnlock 1) x9.
Definition x11 := xstep_cfg (XOp (OPush 2 (PClone (PlObj 3 PHere)))) x10.
Definition x12 := xstep_cfg (XLen 0) x11.
Definition x13 := xstep_cfg (XOp (ODrop 3)) x12.
Definition x14 := xstep_cfg (XEnd 0 true) x13.
Definition x15 := xstep_cfg (XUnlock 0) x14.
Definition x16 := xstep_cfg (XOp (OPush 1 (PClone (PlElem 2 0 PHere)))) x15.
Definition x_old1 : list N := starts t_tup [v_st; v_emp] 0 ++ [total t_tup [v_st; v_emp]].
Definition x_old2 : list N := starts t_tup [v_st] 0 ++ [total t_tup [v_st]].
Definition x_s1 (left : list (nat * vval)) (op : bool) : option asession := Some (mkA 1 t_tup true x_old1 [3;4]%nat left op).
Definition x_s2 (left : list (nat * vval)) (op : bool) : option asession := Some (mkA 2 t_tup false x_old2 [5]%nat left op).
Lemma clone_den σ pl v : at_place σ pl = Some (t_tup, v) -> den σ t_tup (PClone pl) (clone_init t_tup v).
Proof. intros H. apply D_clone; [exact H|]. cbn. conc. Qed.
Lemma xpush c σ ax n h pl chk vs old v : at_x c σ ax n -> nth_error σ h = Some (ASeq t_tup chk vs old) -> at_place σ pl = Some (t_tup, v) -> place_handle pl <> h ->
  ival t_tup (clone_init t_tup v) = Some v -> xout_of (xexec (XOp (OPush h (PClone pl))) c) = Some OutUnit -> v = v_st \/ v = v_tup ->
  at_x (xstep_cfg (XOp (OPush h (PClone pl))) c) (replace_nth σ h (ASeq t_tup chk (vs ++ [v]) old)) ax n.
Proof.
  intros HR Hh Hp Hne Hv Ho Hcase. pose proof (clone_den σ pl v Hp) as D.
  apply (reach_xstep c σ ax n (XOp (OPush h (PClone pl))) OutUnit _ ax []); [exact HR| |exact Ho|].
  - constructor. eapply L_push; [exact Hh|exact D|]. apply no_moves; [reflexivity|]. intros h' [<-|[]] [H|[]]. destruct pl; cbn in *; congruence.
  - constructor. pose proof (A_push σ h (PClone pl) t_tup chk vs old (clone_init t_tup v) v Hh D) as A. destruct Hcase as [-> | ->]; apply A; vm_compute; reflexivity.
Qed.
Example C59_meets :
  at_x x5 [ADead; ADead; ADead; AOwn t_tup v_st; ADead; ADead] [x_s1 [(4%nat, v_emp)] true; x_s2 [(5%nat, v_st)] true] 0 /\
  at_x x12 [ADead; ADead; ASeq t_tup false [v_tup] x_old2; AOwn t_tup v_tup; ADead; ADead] [x_s1 [(4%nat, v_emp)] true; None] 0 /\
  at_x x16 [ADead; ASeq t_tup true [v_tup] x_old1; ASeq t_tup false [v_tup] x_old2; ADead; ADead; ADead] [None; None] 0.
Proof.
  assert (R0 : at_x x0 σ6 [] 0) by (apply reach_reach_x, C45_meets).
  assert (R1 : at_x x1 (σ6 ++ [ASeq t_tup false [] []]) [] 0).
  { apply (reach_xstep x0 σ6 [] 0 (XOp (ONewSeq t_tup false)) OutUnit _ _ []); [exact R0| |vm_compute; reflexivity|constructor; apply A_new_seq].
    constructor. apply L_new_seq; [apply t_tup_wf|apply t_tup_nonzst]. }
  assert (R2 : at_x x2 (σ6 ++ [ASeq t_tup false [v_st] []]) [] 0).
  { apply (xpush x1 _ [] 0 2 (PlElem 1 0 PHere) false [] [] v_st R1); [reflexivity|reflexivity|discriminate|vm_compute; reflexivity|vm_compute; reflexivity|auto]. }
  assert (R3 : at_x x3 [ADead; ADead; ASeq t_tup false [v_st] []; ADead; ADead] [x_s1 [(3%nat, v_st); (4%nat, v_emp)] true] 0).
  { apply (reach_xstep x2 (σ6 ++ [ASeq t_tup false [v_st] []]) [] 0 (XBegin 1) OutUnit _ _ []); [exact R2|eapply XL_begin; reflexivity|vm_compute; reflexivity|].
    apply (XS_begin (σ6 ++ [ASeq t_tup false [v_st] []]) [] 1 t_tup true [v_st; v_emp] []). reflexivity. }
  assert (R4 : at_x x4 [ADead; ADead; ASeq t_tup false [v_st] []; AOwn t_tup v_st; ADead] [x_s1 [(4%nat, v_emp)] true] 0).
  { apply (reach_xstep x3 _ _ 0 (XNext 0) (OutBool true) _ _ [] R3); [eapply XL_next; reflexivity|vm_compute; reflexivity|].
    apply (XS_next [ADead; ADead; ASeq t_tup false [v_st] []; ADead; ADead] [x_s1 [(3%nat, v_st); (4%nat, v_emp)] true] 0 1 t_tup true x_old1 [3;4]%nat 3 v_st [(4%nat, v_emp)]). reflexivity. }
  assert (R5 : at_x x5 [ADead; ADead; ADead; AOwn t_tup v_st; ADead; ADead] [x_s1 [(4%nat, v_emp)] true; x_s2 [(5%nat, v_st)] true] 0).
  { apply (reach_xstep x4 _ _ 0 (XBegin 2) OutUnit _ _ [] R4); [eapply XL_begin; reflexivity|vm_compute; reflexivity|].
    apply (XS_begin [ADead; ADead; ASeq t_tup false [v_st] []; AOwn t_tup v_st; ADead] [x_s1 [(4%nat, v_emp)] true] 2 t_tup false [v_st] []). reflexivity. }
  assert (R6 : at_x x6 [ADead; ADead; ADead; AOwn t_tup v_tup; ADead; ADead] [x_s1 [(4%nat, v_emp)] true; x_s2 [(5%nat, v_st)] true] 0).
  { apply (reach_xstep x5 _ _ 0 (XOp (OAssign (PlObj 3 (PFld 0 PHere)) (PIdx 1) h3)) OutUnit _ _ [h1] R5); [constructor; eapply L_assign; reflexivity|vm_compute; reflexivity|].
    constructor. apply (A_assign [ADead; ADead; ADead; AOwn t_tup v_st; ADead; ADead] (PlObj 3 (PFld 0 PHere)) (PIdx 1) h3 (TArray f_box LU8) (VArr [h2; h1]) f_box h1); reflexivity. }
  assert (R7 : at_x x7 [ADead; ADead; ADead; AOwn t_tup v_tup; ADead; AOwn t_tup v_st] [x_s1 [(4%nat, v_emp)] true; x_s2 [] true] 0).
  { apply (reach_xstep x6 _ _ 0 (XNext 1) (OutBool true) _ _ [] R6); [eapply XL_next; reflexivity|vm_compute; reflexivity|].
    apply (XS_next [ADead; ADead; ADead; AOwn t_tup v_tup; ADead; ADead] [x_s1 [(4%nat, v_emp)] true; x_s2 [(5%nat, v_st)] true] 1 2 t_tup false x_old2 [5]%nat 5 v_st []). reflexivity. }
  assert (R8 : at_x x8 [ADead; ADead; ADead; AOwn t_tup v_tup; ADead; ADead] [x_s1 [(4%nat, v_emp)] true; x_s2 [] true] 0).
  { apply (reach_xstep x7 _ _ 0 (XOp (ODrop 5)) OutUnit _ _ [h2; h1] R7); [constructor; eapply L_drop; [reflexivity|discriminate]|vm_compute; reflexivity|].
    constructor. apply (A_drop [ADead; ADead; ADead; AOwn t_tup v_tup; ADead; AOwn t_tup v_st] 5 (AOwn t_tup v_st)); [reflexivity|discriminate]. }
  assert (R9 : at_x x9 [ADead; ADead; ADead; AOwn t_tup v_tup; ADead; ADead] [x_s1 [(4%nat, v_emp)] true; x_s2 [] false] 0).
  { apply (reach_xstep x8 _ _ 0 (XEnd 1 false) OutUnit _ _ [] R8); [eapply XL_end; reflexivity|vm_compute; reflexivity|].
    apply (XS_end [ADead; ADead; ADead; AOwn t_tup v_tup; ADead; ADead] [x_s1 [(4%nat, v_emp)] true; x_s2 [] true] 1 false 2 t_tup false x_old2 [5]%nat [] true). reflexivity. }
  assert (R10 : at_x x10 [ADead; ADead; ASeq t_tup false [] x_old2; AOwn t_tup v_tup; ADead; ADead] [x_s1 [(4%nat, v_emp)] true; None] 0).
  { apply (reach_xstep x9 _ _ 0 (XUnlock 1) OutUnit _ _ [] R9); [eapply XL_unlock; [reflexivity|reflexivity|intros i [<-|[]]; reflexivity]|vm_compute; reflexivity|].
    apply (XS_unlock [ADead; ADead; ADead; AOwn t_tup v_tup; ADead; ADead] [x_s1 [(4%nat, v_emp)] true; x_s2 [] false] 1 2 t_tup false x_old2 [5]%nat [] false). reflexivity. }
  assert (R11 : at_x x11 [ADead; ADead; ASeq t_tup false [v_tup] x_old2; AOwn t_tup v_tup; ADead; ADead] [x_s1 [(4%nat, v_emp)] true; None] 0).
  { apply (xpush x10 _ _ 0 2 (PlObj 3 PHere) false [] x_old2 v_tup R10); [reflexivity|reflexivity|discriminate|vm_compute; reflexivity|vm_compute; reflexivity|auto]. }
  assert (R12 : at_x x12 [ADead; ADead; ASeq t_tup false [v_tup] x_old2; AOwn t_tup v_tup; ADead; ADead] [x_s1 [(4%nat, v_emp)] true; None] 0).
  { apply (reach_xstep x11 _ _ 0 (XLen 0) (OutNum 1) _ _ [] R11); [eapply XL_len; reflexivity|vm_compute; reflexivity|].
    apply (XS_len _ [x_s1 [(4%nat, v_emp)] true; None] 0 (mkA 1 t_tup true x_old1 [3;4]%nat [(4%nat, v_emp)] true)). reflexivity. }
  assert (R13 : at_x x13 [ADead; ADead; ASeq t_tup false [v_tup] x_old2; ADead; ADead; ADead] [x_s1 [(4%nat, v_emp)] true; None] 0).
  { apply (reach_xstep x12 _ _ 0 (XOp (ODrop 3)) OutUnit _ _ [h2; h3] R12); [constructor; eapply L_drop; [reflexivity|discriminate]|vm_compute; reflexivity|].
    constructor. apply (A_drop [ADead; ADead; ASeq t_tup false [v_tup] x_old2; AOwn t_tup v_tup; ADead; ADead] 3 (AOwn t_tup v_tup)); [reflexivity|discriminate]. }
  assert (R14 : at_x x14 [ADead; ADead; ASeq t_tup false [v_tup] x_old2; ADead; ADead; ADead] [x_s1 [] false; None] 0).
  { apply (reach_xstep x13 _ _ 0 (XEnd 0 true) OutUnit _ _ [] R13); [eapply XL_end; reflexivity|vm_compute; reflexivity|].
    apply (XS_end [ADead; ADead; ASeq t_tup false [v_tup] x_old2; ADead; ADead; ADead] [x_s1 [(4%nat, v_emp)] true; None] 0 true 1 t_tup true x_old1 [3;4]%nat [(4%nat, v_emp)] true). reflexivity. }
  assert (R15 : at_x x15 [ADead; ASeq t_tup true [] x_old1; ASeq t_tup false [v_tup] x_old2; ADead; ADead; ADead] [None; None] 0).
  { apply (reach_xstep x14 _ _ 0 (XUnlock 0) OutUnit _ _ [] R14); [eapply XL_unlock; [reflexivity|reflexivity|intros i [<-|[<-|[]]]; reflexivity]|vm_compute; reflexivity|].
    apply (XS_unlock [ADead; ADead; ASeq t_tup false [v_tup] x_old2; ADead; ADead; ADead] [x_s1 [] false; None] 0 1 t_tup true x_old1 [3;4]%nat [] false). reflexivity. }
  split; [exact R5|]. split; [exact R12|].
  apply (xpush x15 _ _ 0 1 (PlElem 2 0 PHere) true [] x_old1 v_tup R15); [reflexivity|reflexivity|discriminate|vm_compute; reflexivity|vm_compute; reflexivity|auto].
Qed.
(** The destructors this program has run since it began, in order, and what is left when both sequences
    are dropped. *)
Example C59_meets_end :
  let c := xstep_cfg (XOp (ODrop 2)) (xstep_cfg (XOp (ODrop 1)) x16) in
  drops_of (w_log (fst (fst x16))) = drops_of (w_log (fst c6)) ++ [h1; h2; h1; h2; h3] /\
  filter b_heap (w_blocks (fst (fst c))) = [].
Proof. vm_compute. auto. Qed.
