(** ContractExample.v - a type of a user of the crate that the crate's own macros cannot define: a
    zero-terminated byte string. Nothing in its head says how long its tail is; calculate_layout looks
    for the terminator. Dropping it runs a destructor on its bytes and then overwrites them. *)
From Verif Require Export ContractHist Examples.

(** Bytes before the first 0, looking at no more than [n] bytes. (A user's impl, not code of /repo.) *)
Fixpoint cs_len (a : N) (n : nat) : M world N :=
  match n with
  | O => undef UType
  | Datatypes.S n =>
      bs <- load a 1 1 ;;
      match bs with
      | [By b] => if b =? 0 then ret 0 else k <- cs_len (a + 1) n ;; ret (1 + k)
      | _ => undef UUninit
      end
  end.
Definition cs_bytes (v : list N) : list cell := map By v ++ [By 0].
Definition cs_ok (v : list N) : bool := forallb (fun b => (0 <? b) && (b <? 256)) v && (len v <? 256).
(** The implementation: layouts are sizes; initializers are byte strings, refused if too long or if
    they contain a 0. (A user's impl, not code of /repo.) *)
Definition cs_impl : impl N (list N) :=
  mkImpl _ _ 1 1 1 true false
    (fun a => k <- cs_len a 256 ;; ret (k + 1))
    (fun l => l)
    (fun a l => bs <- load a l 1 ;; emit (EDrop bs) ;;; fill_zero a l)
    (fun i => ret (if cs_ok i then Some (len i + 1) else None))
    (fun i D _ => store D 1 (cs_bytes i))
    (fun i => emit (EDrop (cs_bytes i))).
Definition cs_meaning : meaning N (list N) (list N) :=
  mkMeaning _ _ _
    (fun m a v => cs_ok v = true /\ rd m a (len v + 1) = cs_bytes v)
    (fun v => len v + 1) (fun v l => l = len v + 1) (fun v => [EDrop (cs_bytes v)])
    (fun _ _ => True) (fun _ => []) (fun _ => []) (fun i => Some i) (fun _ => [])
    (fun i => [EDrop (cs_bytes i)]).
(** The same with a calculate_layout that forgets the terminator. *)
Definition cs_wrong : impl N (list N) :=
  mkImpl _ _ 1 1 1 true false (fun a => cs_len a 256) (fun l => l)
    (u_vdrop cs_impl) (u_cautious cs_impl) (u_init cs_impl) (u_idrop cs_impl).

Lemma cs_bytes_len v : len (cs_bytes v) = len v + 1.
Proof. unfold cs_bytes, len. rewrite app_length, map_length. cbn. lia. Qed.
Lemma cs_len_ok w : forall v a n,
  Forall (fun b => 0 < b < 256) v -> (length v < n)%nat -> a <> 0 -> live (w_blocks w) a (len v + 1) ->
  rd (w_mem w) a (len v + 1) = cs_bytes v -> cs_len a n w = Ok (len v) w.
Proof.
  induction v as [|b v IH]; intros a n Hv Hn H0 Hl Hr; (destruct n as [|n]; [cbn in Hn; lia|]); cbn [cs_len].
  - change (len (@nil N) + 1) with 1 in *.
    rewrite (bind_ok _ _ _ _ _ (load_ok w a 1 1 H0 (N.mod_1_r _) Hl)). rewrite Hr. reflexivity.
  - rewrite len_cons in *. inversion Hv as [|b' v' Hb Hv' E1]. subst b' v'.
    replace (1 + len v + 1) with (1 + (len v + 1)) in * by lia. rewrite rd_app in Hr.
    assert (E : rd (w_mem w) a 1 = [By b] /\ rd (w_mem w) (a + 1) (len v + 1) = cs_bytes v).
    { change (rd (w_mem w) a 1) with [w_mem w a] in *. cbn [app] in Hr. unfold cs_bytes in *. cbn [map app] in Hr. split; congruence. }
    destruct E as [E E'].
    rewrite (bind_ok _ _ _ _ _ (load_ok w a 1 1 H0 (N.mod_1_r _) (live_pre _ _ _ 1 Hl ltac:(lia)))). rewrite E.
    destruct (N.eqb_spec b 0); [lia|].
    rewrite (bind_ok _ _ _ _ _ (IH (a + 1) n Hv' ltac:(cbn in Hn; lia) ltac:(lia) ltac:(eapply live_sub; [exact Hl|lia]) E')). reflexivity.
Qed.
Lemma cs_ok_spec v : cs_ok v = true -> Forall (fun b => 0 < b < 256) v /\ (length v < 256)%nat.
Proof.
  unfold cs_ok. rewrite andb_true_iff, N.ltb_lt, forallb_forall. intros [H1 H2]. split.
  - apply Forall_forall. intros x Hx. specialize (H1 x Hx). rewrite andb_true_iff, !N.ltb_lt in H1. exact H1.
  - unfold len in H2. lia.
Qed.
Lemma rd_wr m a bs : rd (wr m a bs) a (len bs) = bs.
Proof.
  apply rd_eq; [reflexivity|]. intros i Hi. unfold wr.
  destruct (N.leb_spec a (a + i)), (N.ltb_spec (a + i) (a + len bs)); cbn [andb]; try lia. f_equal. lia.
Qed.
Lemma cs_contract : contract cs_impl cs_meaning.
Proof.
  assert (Hal : pow2 1) by (exists 0; repeat split; cbn; lia).
  constructor; cbn [cs_impl cs_meaning u_align u_halign u_hsize u_lsize u_calc u_nvdrop u_vdrop u_cautious u_init u_idrop
                    m_rep m_size m_lay m_drops m_ok m_holds m_frees m_makes m_log m_idrop].
  - exact Hal.
  - split; [exact Hal|lia].
  - intros m a v _. lia.
  - intros v l ->. reflexivity.
  - intros w a v [(P0 & P1 & P2 & P3) [Hv Hr]]. destruct (cs_ok_spec v Hv) as [V1 V2]. exists (len v + 1). split; [|reflexivity].
    rewrite (bind_ok _ _ _ _ _ (cs_len_ok w v a 256 V1 V2 P0 P3 Hr)). reflexivity.
  - intros m m' a a' v [Hv Hr] Hm. split; [exact Hv|]. rewrite <- Hr. apply rd_shift, Hm.
  - intros w a v l [(P0 & P1 & P2 & P3) [Hv Hr]] ->. cbn [cs_meaning m_size m_rep] in *.
    rewrite (bind_ok _ _ _ _ _ (load_ok w a _ 1 P0 (N.mod_1_r _) P3)). rewrite Hr.
    unfold emit at 1. unfold bind at 1. unfold fill_zero.
    rewrite (bind_ok _ _ _ _ _ (check_ref_ok (add_log w _) a (len v + 1) 1 P0 (N.mod_1_r _) P3)).
    eexists. split; [reflexivity|]. apply effect_intro. split; [|cbn; rewrite without_nil; auto].
    intros x Hx. cbn. unfold fill. destruct (N.leb_spec a x), (N.ltb_spec x (a + (len v + 1))); cbn; try reflexivity; lia.
  - discriminate.
  - intros w i _. split; intros x [].
  - auto.
  - intros w i _. right. eexists. reflexivity.
  - intros w0 w i l D _ Ec _ (P0 & P1 & P2 & P3) _. cbn [cs_impl u_lsize u_align] in *. unfold ret in Ec.
    destruct (cs_ok i) eqn:Eo; [|discriminate]. injection Ec as <-. rewrite without_nil in P3.
    assert (Hl : live (w_blocks w) D (len (cs_bytes i))) by (rewrite cs_bytes_len; exact P3).
    rewrite (store_ok w D 1 (cs_bytes i) P0 (N.mod_1_r _) Hl). eexists. split; [reflexivity|]. split; [|split; [|reflexivity]].
    + apply effect_intro. split; [|cbn; rewrite without_nil, app_nil_r; auto].
      intros x Hx. cbn. unfold wr. rewrite cs_bytes_len. destruct (N.leb_spec D x), (N.ltb_spec x (D + (len i + 1))); cbn; try reflexivity; lia.
    + split; [reflexivity|]. cbn. rewrite <- cs_bytes_len. apply rd_wr.
  - intros w i _. eexists. split; [reflexivity|]. apply effect_intro. split; [intros x _; reflexivity|]. cbn. rewrite without_nil. auto.
Qed.
Lemma cs_no_zst : no_zst cs_impl cs_meaning.
Proof.
  split; [intros; cbn; lia|]. intros w i l _ E. cbn in E. unfold ret in E. destruct (cs_ok i); [|discriminate]. injection E as <-. cbn. lia.
Qed.
