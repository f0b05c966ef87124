(** PlaceAddr.v - the addresses of objects are determined by pointers and shapes. *)
From Verif Require Export PlaceSpec ProgSteps.

Lemma nth_kill_vals σ hs h : ~ In h hs -> nth_error (kill_vals σ hs) h = nth_error σ h.
Proof. intros Hn. change (kill_vals σ hs) with (kills ADead σ hs). rewrite nth_kills. destruct (in_dec _ _ _); [contradiction|reflexivity]. Qed.
Lemma nth_kill sl hs h : ~ In h hs -> nth_error (kill sl hs) h = nth_error sl h.
Proof. intros Hn. change (kill sl hs) with (kills SDead sl hs). rewrite nth_kills. destruct (in_dec _ _ _); [contradiction|reflexivity]. Qed.
Lemma nth_app_some {A} (l r : list A) h x : nth_error l h = Some x -> nth_error (l ++ r) h = Some x.
Proof. intros H. rewrite nth_error_app1; [exact H|]. apply nth_error_Some. congruence. Qed.
(** An operation that does not disturb value number [h] keeps its shape. *)
Lemma astep_shape w sl σ n o r σ' d h u : Inv w sl σ n -> allowed σ o -> astep σ o r σ' d -> ~ disturbs o h -> nth_error σ h = Some u ->
  exists u', nth_error σ' h = Some u' /\ same_shape u u'.
Proof.
  intros HI Hal H Hd Hu. destruct H; cbn [disturbs] in Hd;
    try (exists u; split; [|apply same_shape_refl];
      first [ exact Hu
            | apply nth_app_some; rewrite ?nth_kill_vals by exact Hd; exact Hu
            | rewrite nth_kill_vals by (try exact Hd; intros Hx; apply Hd; auto; destruct Hx as [->|[]]; reflexivity); exact Hu
            | rewrite nth_replace_nth; destruct (Nat.eq_dec _ h) as [E|_]; [exfalso; apply Hd; auto|]; rewrite ?nth_kill_vals by (intros Hx; apply Hd; auto); exact Hu ]).
  - eapply put_place_shape; [eassumption|apply put_shape|exact Hu].
  - eapply put_place_shape; [eassumption| |exact Hu]. cbn [vshape]. f_equal.
    match goal with Hp : at_place _ _ = Some (TRec KStruct ?a ?b ?fs, VRec ?vs) |- _ => destruct (resolve_ok w sl σ n _ _ _ HI Hp) as (? & ? & ? & _ & _ & (Hv & _) & _) end.
    eapply ctrls_shape, Hv.
  - eapply put_place_shape; [eassumption| |exact Hu]. now rewrite !put_shape.
  - inversion Hal as [| | | | | | | | | | | | | | | | | | | |? ? ? ? t1 v1 t1' v1' f Hp Hp' Haw Hm Hm'|]; subst.
    destruct (put_place_shape σ pl _ _ (put v q y) h u H (put_shape _ _ _) Hu) as (u1 & U1 & S1).
    pose proof (at_place_away σ pl pl' _ _ _ _ _ H (put_shape y q v : vshape (put v q y) = vshape v) H0 Haw) as Hp1.
    destruct (put_place_shape _ pl' _ _ (put v' q' x) h u1 Hp1 (put_shape _ _ _) U1) as (u2 & U2 & S2).
    exists u2. split; [exact U2|eapply same_shape_trans; eauto].
  - inversion Hal as [| | | | | | | | | | | | | | | | | | | | |U ? ? t1 v1 v1' Hp Hp' Haw Hun]; subst. rewrite H in Hp. injection Hp as <- <-. clear Hp'.
    destruct (resolve_ok w sl σ n _ _ _ HI H) as (? & ? & ? & _ & _ & (Hv & _) & _).
    destruct (resolve_ok w sl σ n _ _ _ HI H0) as (? & ? & ? & _ & _ & (Hv' & _) & _).
    destruct (unpin_vshape U t v v' Hun Hv Hv') as [Esh _].
    destruct (put_place_shape σ pl _ _ v' h u H (eq_sym Esh) Hu) as (u1 & U1 & S1).
    pose proof (at_place_away σ pl pl' _ _ _ _ _ H (eq_sym Esh) H0 Haw) as Hp1.
    destruct (put_place_shape _ pl' _ _ v h u1 Hp1 Esh U1) as (u2 & U2 & S2).
    exists u2. split; [exact U2|eapply same_shape_trans; eauto].
Qed.
(** It leaves the pointer in place. *)
Lemma exec_slot o w sl h r w' sl' : ~ disturbs o h -> (h < length sl)%nat -> ends (exec o (w, sl)) r w' sl' -> nth_error sl' h = nth_error sl h.
Proof.
  intros Hd Hh He.
  assert (Hsn : forall l x, (h < length l)%nat -> nth_error (l ++ [x]) h = nth_error (l : list slot) h) by (intros l x Hl; apply nth_error_app1; exact Hl).
  assert (Hkl : forall hs, length (kill sl hs) = length sl) by (intros hs; change (kill sl hs) with (kills SDead sl hs); apply kills_length).
  assert (Hup : forall i x l, h <> i -> nth_error (update l i x) h = nth_error (l : list slot) h) by (intros i x l Hi; rewrite nth_update; destruct (Nat.eq_dec i h); [congruence|reflexivity]).
  destruct o; cbn [exec disturbs] in *; unfold call, call_seq in He;
    repeat match type of He with context [match ?m with _ => _ end] => destruct m as [] eqn:? end;
    destruct r; inversion He; subst; clear He; cbn [fst snd] in *;
    try reflexivity;
    rewrite ?Hsn by (rewrite ?Hkl; exact Hh);
    rewrite ?Hup by (intros E; apply Hd; auto);
    rewrite ?nth_kill by (try exact Hd; intros Hx; apply Hd; auto; destruct Hx as [->|[]]; reflexivity); try reflexivity.
Qed.
