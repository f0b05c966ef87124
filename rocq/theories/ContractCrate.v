(** ContractCrate.v - the contract is kept by boxes used as initializers and by the crate's types. *)
From Verif Require Export ContractSeq BoxFacts.

(** ** VBox<T> as an initializer *)
Section Boxes.
Context {L I V : Type} (u : impl L I) (d : meaning L I V).
Lemma boxes_contract : contract u d -> contract (with_boxes V u) (boxed_meaning u d).
Proof.
  intros K. pose proof (pow2_pos _ (k_align u d K)) as Hp. constructor.
  - exact (k_align u d K).
  - exact (k_halign u d K).
  - exact (k_head u d K).
  - exact (k_size u d K).
  - exact (k_calc u d K).
  - exact (k_move u d K).
  - exact (k_vdrop u d K).
  - exact (k_noop u d K).
  - intros w [i|a v] H; cbn in *; [exact (k_holds u d K w i H)|]. destruct H as [_ H]. split; intros x [<-|[]]; [exact H|left; reflexivity].
  - intros w w' [i|a v] H Hf; cbn in *; [exact (k_frame u d K w w' i H Hf)|]. destruct H as [[(P0 & P1 & P2 & P3) Hr] Hb].
    destruct (Hf _ (or_introl eq_refl)) as [H1 H2]. cbn in H2. split; [|exact H1]. split.
    + split; [exact P0|]. split; [exact P1|]. split; [exact P2|]. right. eexists. split; [exact H1|]. cbn. lia.
    + eapply (k_move u d K); [exact Hr|]. intros k Hk. apply H2. cbn in *. lia.
  - intros w [i|a v] H; cbn in *; [exact (k_cautious u d K w i H)|]. destruct H as [Ho _]. right.
    destruct (k_calc u d K w a v Ho) as (l & E & _). exists (Some l).
    rewrite (bind_ok _ _ _ _ _ (uderef u d w a v K Ho)), (bind_ok _ _ _ _ _ E). reflexivity.
  - intros w0 w [i|a v] l D H0 Ec H Hpl Hap; cbn in *; [exact (k_init u d K w0 w i l D H0 Ec H Hpl Hap)|].
    destruct H0 as [Ho0 _]. destruct (k_calc u d K w0 a v Ho0) as (l' & E & Hl).
    rewrite (bind_ok _ _ _ _ _ (uderef u d w0 a v K Ho0)), (bind_ok _ _ _ _ _ E) in Ec. injection Ec as ->.
    rewrite (k_size u d K v l Hl) in *. destruct H as [[(P0 & P1 & P2 & P3) Hr] Hb].
    destruct Hpl as (Q0 & Q1 & Q2 & Q3). specialize (Hap _ (or_introl eq_refl)). cbn in Hap.
    assert (Hlive : live (w_blocks w) D (m_size d v)) by (eapply live_incl; [exact Q3|apply without_incl]).
    rewrite (bind_ok _ _ _ _ _ (copy_ok w a D _ 1 P0 Q0 (N.mod_1_r _) (N.mod_1_r _) P3 Hlive Hap)).
    rewrite dealloc_ok by exact Hb. eexists. split; [reflexivity|]. split; [|split; [|exact Hl]].
    + apply effect_intro. split; [|cbn; auto]. intros x Hx. cbn. unfold move. destruct (N.leb_spec D x), (N.ltb_spec x (D + m_size d v)); cbn; try reflexivity; lia.
    + cbn. eapply (k_move u d K); [exact Hr|]. intros k Hk. unfold move.
      destruct (N.leb_spec D (D + k)), (N.ltb_spec (D + k) (D + m_size d v)); cbn; try lia. f_equal. lia.
  - intros w [i|a v] H; cbn in *; [exact (k_idrop u d K w i H)|]. destruct H as [Ho Hb]. exact (uvbox_drop_ok u d w a v K Ho Hb).
Qed.
End Boxes.

(** ** The crate's types *)
Lemma held_ready w t i bs D n : wf_ty t -> m_ok (crate_meaning t) w (i, bs) ->
  (forall b, In b bs -> apart (b_base b) (b_size b) D n) -> init_ready w t i D n.
Proof.
  intros Hwf [Hi Hr] Ha. cbn [snd fst] in *.
  apply (ready_transport (set_blocks w bs) w t i 0 0 D n Hwf Hr).
  - intros b Hb. apply Hi. destruct Hr as (_ & _ & A3). eapply (proj1 isrc_boxes_all) in A3; eauto.
  - intros a k Hl _. eapply live_incl; [exact Hl|]. intros b Hb. apply in_without in Hb. apply in_without. split; [apply Hi|]; tauto.
  - intros a k Hl _. split; [auto|]. destruct Hl as [->|(b & Hb & H1 & H2)]; [left; reflexivity|].
    cbn in Hb. specialize (Ha b Hb). unfold apart in *. destruct Ha as [Ha|Ha]; [left; lia|lia].
Qed.
Lemma held_usable w t i bs : wf_ty t -> m_ok (crate_meaning t) w (i, bs) -> usable w t i.
Proof. intros Hwf H. eapply held_ready; eauto. intros b _. right. left. reflexivity. Qed.

Lemma crate_contract t : wf_ty t -> contract (with_held (crate_impl t)) (crate_meaning t).
Proof.
  intros Hwf. pose proof (valign_sp t Hwf) as Hal.
  assert (Hobj : forall w a v, uobj_at (with_held (crate_impl t)) (crate_meaning t) w a v -> obj_at w t a v).
  { intros w a v [(P0 & P1 & P2 & P3) [Hv Hr]]. cbn in *. rewrite Hal in P1. repeat split; auto. }
  constructor; cbn.
  - rewrite Hal. apply sp_align_pow2, Hwf.
  - rewrite Hal. split; [apply head_align_pow2|apply head_align_le]; exact Hwf.
  - intros m a v [Hv _]. apply head_size_le; auto.
  - intros v l [Hv ->]. apply lay_size_sp, Hv.
  - intros w a v Ho. apply Hobj in Ho. eexists. split; [apply calc_layout_ok; eauto|]. split; [apply Ho|reflexivity].
  - intros m m' a a' v [Hv Hr] Hm. split; [exact Hv|]. eapply repr_shift; eauto.
  - intros w a v l Ho [Hv ->]. apply Hobj in Ho. eexists. split; [apply vdrop_ok; eauto|].
    apply effect_intro. split; [intros x _; reflexivity|]. cbn. rewrite without_nil. auto.
  - intros Hn m a v [Hv _]. now rewrite (proj1 no_vdrop_all t v Hv Hn).
  - intros w [i bs] [Hi Hr]. cbn [snd fst] in *. split; [exact Hi|]. unfold ibases. intros x Hx. apply in_map_iff in Hx.
    destruct Hx as (b & <- & Hb). apply in_map. destruct Hr as (_ & _ & A3). eapply (proj1 isrc_boxes_all) in A3; eauto.
  - intros w w' [i bs] [Hi Hr] Hf. cbn [snd fst] in *. split; [intros b Hb; apply Hf, Hb|].
    apply (ready_transport (set_blocks w bs) (set_blocks w' bs) t i 0 0 0 0 Hwf Hr).
    + intros b Hb. destruct Hr as (_ & _ & A3). eapply (proj1 isrc_boxes_all) in A3; eauto.
    + auto.
    + intros a k Hl _. split; [|right; left; reflexivity]. intros x Hx. cbn.
      destruct Hl as [->|(b & Hb & H1 & H2)]; [lia|]. cbn in Hb. apply (Hf b Hb). lia.
  - intros w [i bs] H. cbn [fst]. pose proof (held_usable _ _ _ _ Hwf H) as Hu. destruct (ilens t i) eqn:E.
    + right. eexists. eapply init_layout_ok; eauto.
    + destruct (init_layout_bad t w i 0 0 Hwf Hu E) as [X|X]; [right; eauto|left; auto].
  - intros w0 w [i bs] l D H0 Ec H Hpl Hap. cbn [fst snd] in *.
    pose proof (held_usable _ _ _ _ Hwf H0) as Hu0. pose proof (init_layout_lens t w0 i 0 0 l w0 Hwf Hu0 Ec) as Hz.
    rewrite (init_layout_ok t w0 i 0 0 Hwf Hu0 Hz) in Ec. destruct (isize t i <? W); [|discriminate]. injection Ec as <-.
    pose proof Hu0 as (Hit & _). rewrite (lay_size_ishape t i Hit) in *.
    assert (Hpl' : place_ok (without (w_blocks w) (ibases t i)) t D (isize t i)).
    { destruct Hpl as (P0 & P1 & P2 & P3). cbn in *. rewrite Hal in P1. repeat split; auto. }
    pose proof (initialize_ok t w i D Hwf (held_ready _ _ _ _ D (isize t i) Hwf H Hap) Hpl' Hz) as B.
    unfold build_res in B. rewrite (proj1 irun_ival t i) in B. destruct (ival t i) as [v|] eqn:Ev.
    + destruct B as (w' & E & U & Hr). destruct (proj1 ival_ok_all t Hwf i v Hit Ev) as [Hv Hs]. specialize (Hv Hz).
      exists w'. split; [exact E|]. split; [apply effect_intro, U|]. split; [split; auto|]. split; [exact Hv|now rewrite Hs].
    + destruct B as (w' & E & U). exists w'. split; [exact E|apply effect_intro, U].
  - intros w [i bs] H. cbn [fst]. pose proof (held_usable _ _ _ _ Hwf H) as Hu.
    destruct (usable_drop t w i Hwf Hu) as (w' & E & U). exists w'. split; [exact E|apply effect_intro, U].
Qed.
