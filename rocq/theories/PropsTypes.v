(** PropsTypes.v - C63: what the types of the crate let safe code do with lifetimes and threads. *)
From Verif Require Import TypeModel.

(** ** Specification *)
(** The fixed-length types of the values stored in an object: header fields, array elements, at any depth. *)
Fixpoint stored (t : vty) : list fty :=
  match t with
  | TFixed f | TArray f _ => [f]
  | TNew t => stored t
  | TRec _ _ _ fs => stored_f fs
  end
with stored_f (fs : flds) : list fty :=
  match fs with
  | FNil => []
  | FNormal _ f r | FLength _ f r | FArr f _ r => f :: stored_f r
  | FVar t r => stored t ++ stored_f r
  end.
(** Two types with the same lifetimes everywhere it matters. *)
Definition same_type E O (t u : rty) : Prop := sub E O t u /\ sub E O u t.
(** "outlives" is a preorder. *)
Definition preorder (O : nat -> nat -> Prop) : Prop := (forall a, O a a) /\ (forall a b c, O a b -> O b c -> O a c).

(** ** Subtyping *)
Lemma sub_refl E O : preorder O -> forall t, sub E O t t.
Proof. intros [R _]. induction t; try (constructor; auto; fail). destruct (u_variance E c) eqn:V; [apply S_co|apply S_contra|apply S_inv]; auto. Qed.
Lemma sub_trans E O : preorder O -> forall t u v, (sub E O t u -> sub E O u v -> sub E O t v) /\ (sub E O v u -> sub E O u t -> sub E O v t).
Proof.
  intros [_ T]. induction t; intros u v; split; intros H1 H2.
  all: try (inversion H1; subst; inversion H2; subst; try congruence; constructor; eauto; fail).
  all: try (inversion H2; subst; inversion H1; subst; try congruence; constructor; eauto; fail).
  all: try (inversion H1; subst; inversion H2; subst; constructor; eauto; try (eapply IHt; eauto); try (eapply IHt1; eauto); try (eapply IHt2; eauto); fail).
  all: try (inversion H2; subst; inversion H1; subst; constructor; eauto; try (eapply IHt; eauto); try (eapply IHt1; eauto); try (eapply IHt2; eauto); fail).
Qed.
Ltac isub := repeat match goal with
  | H : sub _ _ (RProd _ _) (RProd _ _) |- _ => inversion H; subst; clear H
  | H : sub _ _ (RNonNull _) (RNonNull _) |- _ => inversion H; subst; clear H
  | H : sub _ _ (RPhantom _) (RPhantom _) |- _ => inversion H; subst; clear H
  | H : sub _ _ (RPin _) (RPin _) |- _ => inversion H; subst; clear H
  | H : sub _ _ (RSlice _) (RSlice _) |- _ => inversion H; subst; clear H
  | H : sub _ _ (RRef _ _) (RRef _ _) |- _ => inversion H; subst; clear H
  | H : sub _ _ (RMut _ _) (RMut _ _) |- _ => inversion H; subst; clear H
  end.

(** C63. Coercions of the handles. An owner, and a handle that only reads, can be coerced exactly as its
    element type can, and its lifetime only be shortened; a borrower that writes can be coerced only to the
    same element type. *)
Theorem C63_coercions : forall E O k a t b u, h_param k = true ->
  (sub E O (h_type k a t) (h_type k b u) <->
   O a b /\ if h_writes k && negb (h_owns k) then same_type E O t u else sub E O t u).
Proof.
  intros E O k a t b u P. unfold same_type. destruct k; try discriminate; cbn; (split; [intros H; isub; tauto|]); intros [HO H]; try destruct H as [H H'];
    repeat (constructor; auto).
Qed.
Theorem C63_coercions_owner : forall E O k a t b u, h_param k = false ->
  (sub E O (h_type k a t) (h_type k b u) <-> sub E O t u).
Proof. intros E O k a t b u P. destruct k; try discriminate; cbn; (split; [intros H; isub; tauto|]); intros H; repeat (constructor; auto). Qed.

(** C63. Objects: coerced exactly as the values in them. *)
Lemma r_obj_sub E O R R' :
  (forall t, sub E O (r_obj R t) (r_obj R' t) <-> Forall (fun f => sub E O (R f) (R' f)) (stored t)) /\
  (forall fs, sub E O (r_flds R fs) (r_flds R' fs) <-> Forall (fun f => sub E O (R f) (R' f)) (stored_f fs)).
Proof.
  apply vty_flds_ind.
  - intros f. cbn. split; [intros H; isub; auto|intros H; inversion H; subst; repeat (constructor; auto)].
  - intros f k. cbn. split; [intros H; unfold r_array, r_array_marker in H; cbn in H; isub; auto|intros H; inversion H; subst; repeat (constructor; auto)].
  - intros t IH. cbn. rewrite <- IH. split; [intros H; isub; auto|intros H; repeat (constructor; auto)].
  - intros k hs ha fs IH. exact IH.
  - cbn. split; constructor.
  - intros off f r IH. cbn. rewrite Forall_cons_iff, <- IH. split; [intros H; isub; auto|intros [H1 H2]; constructor; auto].
  - intros off f r IH. cbn. rewrite Forall_cons_iff, <- IH. split; [intros H; isub; auto|intros [H1 H2]; constructor; auto].
  - intros t IHt r IH. cbn. rewrite Forall_app, <- IHt, <- IH. split; [intros H; isub; auto|intros [H1 H2]; repeat (constructor; auto)].
  - intros f lf r IH. cbn. rewrite Forall_cons_iff, <- IH. split; [intros H; unfold r_array_marker in H; cbn in H; isub; auto|intros [H1 H2]; repeat (constructor; auto)].
Qed.
Theorem C63_object_coercions : forall E O R R' t,
  sub E O (r_obj R t) (r_obj R' t) <-> Forall (fun f => sub E O (R f) (R' f)) (stored t).
Proof. intros. apply r_obj_sub. Qed.

(** C63. Threads. No owner and no iterator can be moved to another thread or shared with it, whatever the
    element type; a reference can, under the rules of Rust for its object type. *)
Theorem C63_handles_stay : forall E k a t,
  (In k [HVBox; HOwned; HSeq; HElems; HIter; HIterMut] -> send E (h_type k a t) = false /\ sync E (h_type k a t) = false) /\
  (In k [HRef; HCopier] -> send E (h_type k a t) = sync E t /\ sync E (h_type k a t) = sync E t) /\
  (k = HPinMut -> send E (h_type k a t) = send E t /\ sync E (h_type k a t) = sync E t).
Proof.
  intros E k a t. split; [|split].
  - intros H. repeat destruct H as [<-|H]; try destruct H; cbn; auto.
  - intros H. repeat destruct H as [<-|H]; try destruct H; cbn; rewrite ?andb_true_r; auto.
  - intros ->. cbn. auto.
Qed.
(** An object is Send, Sync or Unpin exactly if ... all the values in it are; for Unpin this is [unpin], the
    premise under which C57 says what safe code can swap. *)
Lemma forallb_cons_iff {A} (p : A -> bool) x l : forallb p (x :: l) = p x && forallb p l.
Proof. reflexivity. Qed.
Lemma r_obj_send E R :
  (forall t, send E (r_obj R t) = forallb (fun f => send E (R f)) (stored t)) /\
  (forall fs, send E (r_flds R fs) = forallb (fun f => send E (R f)) (stored_f fs)).
Proof.
  apply vty_flds_ind; intros; cbn -[forallb]; rewrite ?forallb_cons_iff, ?forallb_app, ?andb_true_r; cbn [forallb]; rewrite ?andb_true_r; try reflexivity; congruence.
Qed.
Lemma r_obj_sync E R :
  (forall t, sync E (r_obj R t) = forallb (fun f => sync E (R f)) (stored t)) /\
  (forall fs, sync E (r_flds R fs) = forallb (fun f => sync E (R f)) (stored_f fs)).
Proof.
  apply vty_flds_ind; intros; cbn -[forallb]; rewrite ?forallb_cons_iff, ?forallb_app, ?andb_true_r; cbn [forallb]; rewrite ?andb_true_r; try reflexivity; congruence.
Qed.
Theorem C63_object_threads : forall E R t,
  (send E (r_obj R t) = true <-> forall f, In f (stored t) -> send E (R f) = true) /\
  (sync E (r_obj R t) = true <-> forall f, In f (stored t) -> sync E (R f) = true).
Proof.
  intros E R t. rewrite (proj1 (r_obj_send E R)), (proj1 (r_obj_sync E R)). split; apply forallb_forall.
Qed.
Theorem C63_object_unpin : forall E R t, runpin E (r_obj R t) = unpin (fun f => runpin E (R f)) t.
Proof.
  intros E R. apply (vty_flds_ind (fun t => runpin E (r_obj R t) = unpin (fun f => runpin E (R f)) t) (fun fs => runpin E (r_flds R fs) = unpin_flds (fun f => runpin E (R f)) fs));
    intros; cbn; rewrite ?andb_true_r; try reflexivity; congruence.
Qed.
(** Refs and Muts of an object: shared with or moved to another thread under the same rules. The header
    fields marked controls_layout are shared references also in Muts. *)
Fixpoint controllers (fs : flds) : list fty :=
  match fs with
  | FNil => []
  | FLength _ f r => f :: controllers r
  | FNormal _ _ r | FVar _ r | FArr _ _ r => controllers r
  end.
Fixpoint writable (fs : flds) : list fty :=
  match fs with
  | FNil => []
  | FNormal _ f r | FArr f _ r => f :: writable r
  | FVar t r => stored t ++ writable r
  | FLength _ _ r => writable r
  end.
Theorem C63_refs_threads : forall E R a fs,
  (send E (r_refs R a fs) = true <-> forall f, In f (stored_f fs) -> sync E (R f) = true) /\
  (send E (r_muts R a fs) = true <->
     (forall f, In f (writable fs) -> send E (R f) = true) /\ (forall f, In f (controllers fs) -> sync E (R f) = true)).
Proof.
  intros E R a fs.
  assert (H : send E (r_refs R a fs) = forallb (fun f => sync E (R f)) (stored_f fs) /\
    send E (r_muts R a fs) = forallb (fun f => send E (R f)) (writable fs) && forallb (fun f => sync E (R f)) (controllers fs)).
  { induction fs as [|off f r [I1 I2]|off f r [I1 I2]|t r [I1 I2]|f lf r [I1 I2]]; cbn -[forallb]; rewrite ?forallb_cons_iff, ?forallb_app, ?I1, ?I2, ?(proj1 (r_obj_send E R)), ?(proj1 (r_obj_sync E R)), ?andb_assoc; auto.
    split; [reflexivity|]. rewrite (andb_comm (sync _ _)), <- !andb_assoc. f_equal. }
  destruct H as [-> ->]. rewrite andb_true_iff, !forallb_forall. tauto.
Qed.
(** Coercing Refs and Muts. *)
Lemma sub_prod E O t u t' u' : sub E O (RProd t u) (RProd t' u') <-> sub E O t t' /\ sub E O u u'.
Proof. split; [intros H; inversion H; auto|intros []; now constructor]. Qed.
Lemma sub_ref E O a b t u : sub E O (RRef a t) (RRef b u) <-> O a b /\ sub E O t u.
Proof. split; [intros H; inversion H; auto|intros []; now constructor]. Qed.
Lemma sub_mut E O a b t u : sub E O (RMut a t) (RMut b u) <-> O a b /\ same_type E O t u.
Proof. unfold same_type. split; [intros H; inversion H; auto|intros (? & ? & ?); now constructor]. Qed.
Lemma sub_pin E O t u : sub E O (RPin t) (RPin u) <-> sub E O t u.
Proof. split; [intros H; inversion H; auto|now constructor]. Qed.
Lemma sub_slice E O t u : sub E O (RSlice t) (RSlice u) <-> sub E O t u.
Proof. split; [intros H; inversion H; auto|now constructor]. Qed.
Lemma same_slice E O t u : same_type E O (RSlice t) (RSlice u) <-> same_type E O t u.
Proof. unfold same_type. rewrite !sub_slice. reflexivity. Qed.
Lemma Forall_and_iff {A} (P Q : A -> Prop) l : Forall (fun x => P x /\ Q x) l <-> Forall P l /\ Forall Q l.
Proof. rewrite !Forall_forall. firstorder. Qed.
Lemma same_obj E O R R' t : same_type E O (r_obj R t) (r_obj R' t) <-> Forall (fun f => same_type E O (R f) (R' f)) (stored t).
Proof. unfold same_type. rewrite Forall_and_iff, (proj1 (r_obj_sub E O R R')), (proj1 (r_obj_sub E O R' R)). reflexivity. Qed.
Theorem C63_refs_coercions : forall E O R R' a b fs, fs <> FNil ->
  (sub E O (r_refs R a fs) (r_refs R' b fs) <-> O a b /\ forall f, In f (stored_f fs) -> sub E O (R f) (R' f)) /\
  (sub E O (r_muts R a fs) (r_muts R' b fs) <-> O a b /\
     (forall f, In f (writable fs) -> same_type E O (R f) (R' f)) /\ (forall f, In f (controllers fs) -> sub E O (R f) (R' f))).
Proof.
  intros E O R R' a b fs N. rewrite <- !Forall_forall.
  assert (H : (sub E O (r_refs R a fs) (r_refs R' b fs) <-> (fs <> FNil -> O a b) /\ Forall (fun f => sub E O (R f) (R' f)) (stored_f fs)) /\
    (sub E O (r_muts R a fs) (r_muts R' b fs) <-> (fs <> FNil -> O a b) /\
     Forall (fun f => same_type E O (R f) (R' f)) (writable fs) /\ Forall (fun f => sub E O (R f) (R' f)) (controllers fs))).
  { clear N. induction fs as [|off f r [I1 I2]|off f r [I1 I2]|t r [I1 I2]|f lf r [I1 I2]]; cbn [r_refs r_muts stored_f writable controllers].
    { split; (split; [intros _; repeat split; try constructor; congruence|intros; constructor]). }
    1: assert (X : FNormal off f r <> FNil) by discriminate.
    2: assert (X : FLength off f r <> FNil) by discriminate.
    3: assert (X : FVar t r <> FNil) by discriminate.
    4: assert (X : FArr f lf r <> FNil) by discriminate.
    all: rewrite !sub_prod, I1, I2, ?sub_pin, ?sub_ref, ?sub_mut, ?sub_slice, ?same_slice, ?same_obj, ?(proj1 (r_obj_sub E O R R')), ?Forall_cons_iff, ?Forall_app; tauto. }
  destruct H as [-> ->]. tauto.
Qed.

(** ** Using an object *)
Definition tstart (v : rty) (h : handle) : tstate := mkTS v [h].
Inductive tsteps (E : tenv) (O : nat -> nat -> Prop) : tstate -> tstate -> Prop :=
| Q_none : forall s, tsteps E O s s
| Q_step : forall s s1 s2, tsteps E O s s1 -> tstep E O s1 s2 -> tsteps E O s s2.
(** Adjacent handles: the upper one is a borrow from the lower one. *)
Definition borrowed E O (up down : handle) : Prop :=
  O (hd_life down) (hd_life up) /\ h_owns (hd_kind up) = false /\
  (h_writes (hd_kind up) = true -> h_writes (hd_kind down) = true) /\
  if h_writes (hd_kind up) then same_type E O (hd_type down) (hd_type up) else sub E O (hd_type down) (hd_type up).
Fixpoint chain E O (h : handle) (hs : list handle) : Prop :=
  match hs with [] => True | d :: r => borrowed E O h d /\ chain E O d r end.
Definition tinv E O (s : tstate) : Prop :=
  match ts_handles s with
  | [] => False
  | h :: r => chain E O h r /\ forall d, In d (h :: r) -> sub E O (ts_value s) (hd_type d)
  end.
Lemma chain_types E O : preorder O -> forall hs h d, h_writes (hd_kind h) = true -> chain E O h hs -> In d hs -> sub E O (hd_type h) (hd_type d).
Proof.
  intros P. induction hs as [|p hs IH]; intros h d W C Hd; [destruct Hd|]. destruct C as [(_ & _ & B1 & B2) C]. rewrite W in B2. destruct B2 as [_ B2].
  destruct Hd as [<-|Hd]; [exact B2|]. refine (proj1 (sub_trans E O P _ _ _) B2 _). apply IH; auto.
Qed.
Lemma tinv_step E O s s' : preorder O -> tinv E O s -> tstep E O s s' -> tinv E O s'.
Proof.
  intros P I S. unfold tinv in *. inversion S; subst; cbn [ts_handles ts_value] in *; destruct I as [C V].
  - assert (Hs : (h_param k = true -> O a b) /\ (if h_writes k && negb (h_owns k) then same_type E O t u else sub E O t u)).
    { destruct (h_param k) eqn:K.
      - apply C63_coercions in H; [|exact K]. tauto.
      - split; [discriminate|]. apply C63_coercions_owner in H; [|exact K]. destruct k; try discriminate; exact H. }
    destruct Hs as [HO Hs]. assert (Htu : sub E O t u) by (destruct (_ && _); [apply Hs|exact Hs]). split.
    + destruct hs as [|p hs]; [exact I|]. cbn [chain] in *. destruct C as [(B0 & B1 & B2 & B3) C]. split; [|exact C]. unfold borrowed in *. cbn [hd_life hd_kind hd_type] in *. repeat split; auto.
      * destruct (h_param k) eqn:K; [|rewrite (H0 eq_refl); exact B0]. exact (proj2 P _ _ _ B0 (HO eq_refl)).
      * rewrite B1 in Hs. destruct (h_writes k); cbn in Hs.
        -- destruct B3 as [B3 B4], Hs as [Hs Hs']. split; [exact (proj1 (sub_trans E O P _ _ _) B3 Hs)|exact (proj1 (sub_trans E O P _ _ _) Hs' B4)].
        -- exact (proj1 (sub_trans E O P _ _ _) B3 Hs).
    + intros d [<-|Hd]; [|apply V; now right]. cbn. refine (proj1 (sub_trans E O P _ _ _) _ Htu). exact (V _ (or_introl eq_refl)).
  - split.
    + destruct hs as [|p hs]; [exact I|]. destruct C as [(_ & B1 & _) _]. cbn in B1. congruence.
    + intros d [<-|Hd]; [exact (V _ (or_introl eq_refl))|apply V; now right].
  - split.
    + cbn [chain]. split; [|exact C]. unfold borrowed. cbn. repeat split; auto. destruct (h_writes k'); [split|]; now apply sub_refl.
    + intros d [<-|Hd]; [exact (V _ (or_introl eq_refl))|now apply V].
  - destruct hs as [|p hs]; [congruence|]. destruct C as [_ C]. split; [exact C|]. intros d Hd. apply V. now right.
  - split; [exact C|]. intros d [<-|Hd]; [exact H0|]. refine (proj1 (sub_trans E O P _ _ _) H0 _). exact (chain_types E O P hs (mkHd k a t) d H C Hd).
Qed.
(** C63. However an object is passed on, borrowed, coerced and written to, a value read from it through
    the active handle has a type that can be coerced to the element type of the handle, so no lifetime in it
    has been extended; and a borrow never lasts longer than what it is borrowed from. *)
Theorem C63_no_extension : forall E O v h s, preorder O -> sub E O v (hd_type h) ->
  tsteps E O (tstart v h) s ->
  exists top rest, ts_handles s = top :: rest /\ sub E O (ts_value s) (hd_type top) /\
    forall i up down, nth_error (ts_handles s) i = Some up -> nth_error (ts_handles s) (Datatypes.S i) = Some down -> O (hd_life down) (hd_life up).
Proof.
  intros E O v h s P Hv HS. assert (I : tinv E O s).
  { remember (tstart v h) as s0. induction HS as [s|s s1 s2 HS IH S]; subst.
    - split; [exact I|]. intros d [<-|[]]. exact Hv.
    - eapply tinv_step; eauto. }
  unfold tinv in I. destruct (ts_handles s) as [|top rest]; [destruct I|]. destruct I as [C V]. exists top, rest. split; [reflexivity|]. split; [apply V; now left|].
  clear -C. revert top C. induction rest as [|p rest IH]; intros top C [|i] up down H1 H2; try discriminate.
  - cbn in H1, H2. injection H1 as <-. injection H2 as <-. apply C.
  - cbn [nth_error] in H1. eapply (IH p (proj2 C) i); eauto.
Qed.

(** ** Concrete cases *)
(** Lifetimes 0 = 'static, 1, 2, ..., shorter and shorter. User types: 0 like &'a str, 1 like Cell<&'a str>, 2 like Rc. *)
Definition te_ex : tenv :=
  mkTE (fun c => match c with 1%nat => Invariant | _ => Covariant end) (fun c => negb (Nat.eqb c 2)) (fun c => Nat.eqb c 0) (fun _ => true).
Definition o_ex (a b : nat) : Prop := (a <= b)%nat.
Lemma o_ex_pre : preorder o_ex.
Proof. split; unfold o_ex; intros; lia. Qed.
(** A VBox<&'static str> becomes an element of a Seq, the Seq is borrowed mutably, the element changed to
    another &'static str, then the Seq is coerced to a Seq<&'3 str>, borrowed again and a &'2 str written. *)
Example C63_meets :
  tsteps te_ex o_ex (tstart (RUser 0 0) (mkHd HVBox 1 (RUser 0 0)))
    (mkTS (RUser 0 2) [mkHd HPinMut 5 (RUser 0 3); mkHd HIterMut 4 (RUser 0 3); mkHd HSeq 1 (RUser 0 3)]) /\
  (* through a mutable borrow the type cannot be changed, through a shared one it can *)
  ~ sub te_ex o_ex (h_type HIterMut 4 (RUser 0 0)) (h_type HIterMut 4 (RUser 0 3)) /\
  sub te_ex o_ex (h_type HIter 4 (RUser 0 0)) (h_type HIter 5 (RUser 0 3)) /\
  ~ sub te_ex o_ex (h_type HIter 4 (RUser 0 0)) (h_type HIter 3 (RUser 0 0)) /\
  ~ sub te_ex o_ex (h_type HVBox 4 (RUser 1 0)) (h_type HVBox 4 (RUser 1 3)) /\
  (* an array of Cell can be sent to a thread but not shared, one of Rc neither *)
  (let t := TArray u8 LU8 in
   send te_ex (r_obj (fun _ => RUser 1 0) t) = true /\ sync te_ex (r_obj (fun _ => RUser 1 0) t) = false /\
   send te_ex (r_obj (fun _ => RUser 2 0) t) = false).
Proof.
  split; [|split; [|split; [|split; [|split]]]].
  - eapply Q_step; [|apply (TS_write _ _ (RUser 0 0)); [reflexivity|apply S_co; [reflexivity|unfold o_ex; lia]]].
    eapply Q_step; [|apply (TS_borrow _ _ _ HIterMut 4); [reflexivity|reflexivity|unfold o_ex; lia]].
    eapply Q_step; [|apply (TS_borrow _ _ _ HSeq 1); [reflexivity|reflexivity|unfold o_ex; lia]].
    eapply Q_step; [|apply (TS_coerce _ _ _ HSeq 1 (RUser 0 0)); [apply C63_coercions_owner; [reflexivity|apply S_co; [reflexivity|unfold o_ex; lia]]|reflexivity]].
    eapply Q_step; [|apply (TS_return _ _ _ (mkHd HIterMut 3 (RUser 0 0))); discriminate].
    eapply Q_step; [|apply (TS_write _ _ (RUser 0 0)); [reflexivity|apply S_co; [reflexivity|unfold o_ex; lia]]].
    eapply Q_step; [|apply (TS_borrow _ _ _ HSeq 1); [reflexivity|reflexivity|unfold o_ex; lia]].
    eapply Q_step; [|apply (TS_move _ _ _ HVBox 1); reflexivity]. apply Q_none.
  - intros H. apply C63_coercions in H; [|reflexivity]. destruct H as [_ [_ H]]. inversion H; subst; cbn in *; try discriminate. unfold o_ex in *. lia.
  - apply C63_coercions; [reflexivity|]. split; [unfold o_ex; lia|apply S_co; [reflexivity|unfold o_ex; lia]].
  - intros H. apply C63_coercions in H; [|reflexivity]. destruct H as [H _]. unfold o_ex in H. lia.
  - intros H. apply C63_coercions_owner in H; [|reflexivity]. inversion H; subst; cbn in *; try discriminate. unfold o_ex in *. lia.
  - cbn. auto.
Qed.
